(** The text parsers at an arbitrary format that can be told apart accept exactly the texts of
    FormatSpec.v: the development of TextProofs.v, TextRead.v, TextComplete.v and TextMain.v with a format in
    place of a notation. *)
From Verif Require Export TextComplete NormalizeProofs FormatSpec.
From Coq Require String.
Import String.StringSyntax.

Definition readable (alphabetic : char -> bool) (F : format) : Prop := alphabetic_ok alphabetic /\ separable alphabetic F.

Lemma unused_inv c : unused c -> is_whitespace c = false /\ c <> c_semi /\ c <> squote /\ c <> dquote /\
  c <> c_open /\ c <> c_close /\ c <> c_lbrack /\ c <> c_rbrack.
Proof.
  intros [H1 H2]. split; [assumption|]. cbn in H2. unfold c_semi, squote, dquote, c_open, c_close, c_lbrack, c_rbrack.
  repeat split; intros ->; apply H2; tauto.
Qed.

Lemma format_token_inv al F tok text : format_token al F tok text ->
  match tok with
  | TokName n => match f_delimiter F with
                 | Some (a, b) => text = a :: n ++ [b] /\ ~ In b n
                 | None => text = n /\ exists c n', n = c :: n' /\ al c = true /\ forall x, In x n -> ~ ends_name x
                 end
  | TokString q x => text = q :: x ++ [q] /\ In q (lit "'""") /\ ~ In q x
  | TokDefine b => text = f_separator F ++ (if b then [f_alternative F] else [])
  | TokAlt => text = [f_alternative F]
  | TokOpen => text = [c_open]
  | TokClose => text = [c_close]
  | TokOpenOpt => text = [c_lbrack]
  | TokCloseOpt => text = [c_rbrack]
  end.
Proof.
  intro H. destruct H; cbn; auto; try (rewrite H; eauto 10; fail).
  symmetry. apply app_nil_r.
Qed.

Section Tokens.
Variable alphabetic : char -> bool.
Variable F : format.
Hypothesis HF : readable alphabetic F.
Notation spells := (format_spells alphabetic F).
Notation ws := whitespace_plus_comments.

(** The first character of a token. *)
Definition first_of (tok : token) (c : char) : Prop :=
  match tok with
  | TokName _ => match f_delimiter F with
                 | Some (a, _) => c = a
                 | None => alphabetic c = true
                 end
  | TokString _ _ => c = squote \/ c = dquote
  | TokDefine _ => exists ds, f_separator F = c :: ds
  | TokAlt => c = f_alternative F
  | TokOpen => c = c_open
  | TokClose => c = c_close
  | TokOpenOpt => c = c_lbrack
  | TokCloseOpt => c = c_rbrack
  end.
Lemma first_of_text tok text : format_token alphabetic F tok text -> exists c r, text = c :: r /\ first_of tok c.
Proof.
  destruct HF as [_ (d & ds & Ed & _)]. intro H. apply format_token_inv in H. destruct tok; cbn [first_of]; try (subst; eauto; fail).
  - destruct (f_delimiter F) as [[a b]|]; destruct H as [-> H]; [eauto|]. destruct H as (c & n' & -> & Ha & _). eauto.
  - destruct H as [-> [H _]]. eexists _, _. split; [reflexivity|]. destruct H as [<-|[<-|[]]]; auto.
  - subst text. rewrite Ed. cbn. eexists _, _. split; [reflexivity|]. eauto.
Qed.

(** The kinds of tokens begin with different characters. *)
Definition kind (tok : token) : nat :=
  match tok with
  | TokName _ => 0 | TokString _ _ => 1 | TokDefine _ => 2 | TokAlt => 3
  | TokOpen => 4 | TokClose => 5 | TokOpenOpt => 6 | TokCloseOpt => 7
  end.
Lemma alpha_inv c : alphabetic c = true -> is_whitespace c = false /\ c <> c_semi /\ c <> squote /\ c <> dquote /\
  c <> c_open /\ c <> c_close /\ c <> c_lbrack /\ c <> c_rbrack.
Proof.
  intro H. destruct HF as [Ha _]. destruct (Ha c H) as [Hw Hl]. split; [assumption|].
  unfold c_semi, squote, dquote, c_open, c_close, c_lbrack, c_rbrack. repeat split; intros ->; lia.
Qed.
Lemma first_of_kind t1 t2 c : first_of t1 c -> first_of t2 c -> kind t1 = kind t2.
Proof.
  destruct HF as [_ (d & ds & Ed & Hd & Ha & Hda & Hdel)]. apply unused_inv in Hd, Ha.
  assert (Hx : forall x, first_of (TokName x) c -> (is_whitespace c = false /\ c <> c_semi /\ c <> squote /\ c <> dquote /\
    c <> c_open /\ c <> c_close /\ c <> c_lbrack /\ c <> c_rbrack) /\ c <> d /\ c <> f_alternative F).
  { intros x. cbn. destruct (f_delimiter F) as [[a b]|].
    - intros ->. destruct Hdel as (H1 & H2 & H3). apply unused_inv in H1. auto.
    - intro H. split; [apply alpha_inv; assumption|]. destruct Hdel as [H1 H2]. split; intros ->; congruence. }
  assert (Hs : forall b, first_of (TokDefine b) c -> c = d) by (intros b [ds' E]; congruence).
  assert (Hw : forall t, kind t = 0 -> exists n, t = TokName n) by (intros []; try discriminate; eauto).
  destruct t1; destruct t2; try reflexivity; intros H1 H2; exfalso;
    repeat match goal with
    | H : first_of (TokName _) c |- _ => apply Hx in H
    | H : first_of (TokDefine _) c |- _ => apply Hs in H
    end; cbn [first_of] in *; try (subst c; tauto); try (intuition congruence);
    repeat match goal with H : _ \/ _ |- _ => destruct H end; subst; try discriminate; tauto.
Qed.

Lemma token_first tok text : format_token alphabetic F tok text ->
  exists c r, text = c :: r /\ is_whitespace c = false /\ N.eqb c c_semi = false.
Proof.
  intro H. apply first_of_text in H. destruct H as (c & r & -> & H). exists c, r. split; [reflexivity|].
  assert (Hc : is_whitespace c = false /\ c <> c_semi); [|rewrite N.eqb_neq; exact Hc].
  pose proof HF as [_ (d & ds & Ed & Hd & Ha & Hda & Hdel)]. apply unused_inv in Hd, Ha. destruct tok; cbn in H.
  - destruct (f_delimiter F) as [[a b]|]; [subst; destruct Hdel as (H1 & _); apply unused_inv in H1; tauto|].
    apply alpha_inv in H. tauto.
  - destruct H as [->| ->]; split; try reflexivity; discriminate.
  - destruct H as [ds' H]. assert (c = d) by congruence. subst. tauto.
  - subst. tauto.
  - subst; split; [reflexivity|discriminate].
  - subst; split; [reflexivity|discriminate].
  - subst; split; [reflexivity|discriminate].
  - subst; split; [reflexivity|discriminate].
Qed.

Lemma skip_token tok text rest : format_token alphabetic F tok text -> skip false (text ++ rest) = text ++ rest.
Proof.
  intro H. apply token_first in H. destruct H as (c & r & -> & H1 & H2). cbn [app skip]. rewrite H1, H2. reflexivity.
Qed.

Lemma spells_nil_text toks : spells toks [] -> toks = [].
Proof.
  intro H. inversion H as [|tok text lay rest toks' Ht _ _ _ _ E1 E2]; [reflexivity|].
  apply token_first in Ht. destruct Ht as (c & r & -> & _). discriminate.
Qed.

Lemma spells_skip toks rest lay : layout lay -> spells toks rest -> spells toks (skip false (lay ++ rest)).
Proof.
  intros Hl H. rewrite skip_layout by assumption. inversion H as [s Hc E1 E2|tok text l r toks' Ht H1 H2 H3 H4 E1 E2].
  - rewrite skip_last by assumption. constructor. left; reflexivity.
  - subst. rewrite (skip_token tok) by assumption. econstructor; eassumption.
Qed.

Lemma spells_unskip toks s : spells toks (ws s) -> exists lay rest, s = lay ++ rest /\ layout lay /\ spells toks rest.
Proof.
  intro H. destruct (skip_split (length s) s (le_n _)) as (lay & rest & -> & Hl & Hs).
  exists lay, rest. split; [reflexivity|]. split; [assumption|]. unfold ws in H.
  destruct Hs as [E|[E Hc]]; rewrite E in H; [assumption|].
  rewrite (spells_nil_text _ H). constructor. assumption.
Qed.

Lemma spells_inv tok toks s : spells (tok :: toks) s -> exists text s1,
  s = text ++ s1 /\ format_token alphabetic F tok text /\ spells toks (ws s1) /\
  (tok = TokOpen \/ tok = TokOpenOpt -> spells toks s1) /\
  (forall n, f_delimiter F = None -> tok = TokName n -> name_end s1).
Proof.
  intro H. inversion H as [|tok' text lay rest toks' Ht Hl Ho Hn Hs E1 E2]; subst.
  exists text, (lay ++ rest). split; [reflexivity|]. split; [assumption|].
  split; [apply spells_skip; assumption|]. split; [|exact Hn].
  intro E. rewrite (Ho E). exact Hs.
Qed.

Lemma spells_intro tok toks text s1 : format_token alphabetic F tok text -> spells toks (ws s1) ->
  tok <> TokOpen -> tok <> TokOpenOpt ->
  (forall n, f_delimiter F = None -> tok = TokName n -> name_end s1) ->
  spells (tok :: toks) (text ++ s1).
Proof.
  intros Ht Hs H1 H2 Hn. apply spells_unskip in Hs. destruct Hs as (lay & rest & -> & Hl & Hs).
  apply format_next; auto. intros [E|E]; contradiction.
Qed.
Lemma spells_intro_open tok toks text s1 : format_token alphabetic F tok text -> spells toks s1 ->
  tok = TokOpen \/ tok = TokOpenOpt -> spells (tok :: toks) (text ++ s1).
Proof.
  intros Ht Hs Ho. change (text ++ s1) with (text ++ [] ++ s1). apply format_next; auto; [constructor|].
  intros n _ E. destruct Ho as [->| ->]; discriminate.
Qed.


(** ** Reading single tokens *)

Lemma name_make n text s1 : format_token alphabetic F (TokName n) text ->
  (f_delimiter F = None -> name_end s1) -> name alphabetic F (text ++ s1) = Some (n, s1).
Proof.
  intros H. apply format_token_inv in H. revert H. unfold name. destruct (f_delimiter F) as [[a b]|].
  - intros [-> Hn] _. cbn [app]. rewrite p_char_make. cbn [obind].
    rewrite <- app_assoc. cbn [app]. rewrite take_till_make, p_char_make; [reflexivity| |].
    + intros c Hc. apply N.eqb_neq. intros ->. contradiction.
    + right. exists b, s1. split; [reflexivity|apply N.eqb_refl].
  - intros [-> (c & n' & -> & Ha & Hn)] He. cbn [app]. rewrite Ha. f_equal.
    apply (take_till_make ends_nameb (c :: n') s1).
    + intros x Hx. destruct (ends_nameb x) eqn:E; [|reflexivity]. apply ends_nameb_spec in E. destruct (Hn x Hx E).
    + destruct (He eq_refl) as [->|(x & r & -> & Hx)]; [left; reflexivity|]. right. exists x, r. split; [reflexivity|].
      apply ends_nameb_spec. assumption.
Qed.

Lemma name_inv s n s1 : name alphabetic F s = Some (n, s1) ->
  exists text, s = text ++ s1 /\ format_token alphabetic F (TokName n) text /\ (f_delimiter F = None -> name_end s1).
Proof.
  unfold name. destruct (f_delimiter F) as [[a b]|] eqn:Ed.
  - destruct (p_char a s) as [s2|] eqn:E1; [|discriminate]. cbn [obind].
    apply p_char_suffix in E1. destruct (take_till _ s2) as [x y] eqn:E2. apply take_till_inv in E2. destruct E2 as (-> & H1 & _).
    destruct (p_char b y) as [r|] eqn:E3; [|discriminate]. cbn [obind]. apply p_char_suffix in E3.
    intro H; injection H as -> ->. subst. exists (a :: n ++ [b]). split; [cbn; rewrite <- app_assoc; reflexivity|].
    split; [|discriminate]. apply format_delimited; [assumption|]. intro Hi. apply H1 in Hi. rewrite N.eqb_refl in Hi. discriminate.
  - destruct s as [|c s]; [discriminate|]. destruct (alphabetic c) eqn:Ea; [|discriminate].
    intro H. assert (H' : take_till ends_nameb (c :: s) = (n, s1)) by (injection H as H; exact H). clear H; rename H' into H.
    apply take_till_inv in H. destruct H as (E & H1 & H2).
    assert (Hc : ends_nameb c = false).
    { destruct (alpha_inv c Ea) as (Hw & _ & _ & _ & _ & H3 & _ & H4). unfold ends_nameb. rewrite Hw. cbn [orb].
      apply orb_false_iff. split; apply N.eqb_neq; assumption. }
    assert (En : exists n', n = c :: n').
    { destruct n as [|x n']; cbn in E; [|injection E as -> _; eauto]. destruct H2 as [->|(x & r & -> & Hx)]; [discriminate|].
      injection E as -> _. congruence. }
    destruct En as [n' ->]. exists (c :: n'). split; [assumption|]. split.
    + apply format_bare; [assumption|assumption|]. intros x Hx He. apply ends_nameb_spec in He. rewrite (H1 x Hx) in He. discriminate.
    + intros _. destruct H2 as [->|(x & r & -> & Hx)]; [left; reflexivity|]. right. exists x, r. split; [reflexivity|].
      apply ends_nameb_spec. assumption.
Qed.

Lemma nonterminal_inv s t r : nonterminal alphabetic F s = Some (t, r) -> exists n text s1, t = Nonterminal n /\
  s = text ++ s1 /\ format_token alphabetic F (TokName n) text /\ (f_delimiter F = None -> name_end s1) /\ r = ws s1.
Proof.
  unfold nonterminal. destruct (name alphabetic F s) as [[n s1]|] eqn:E; [|discriminate]. cbn [obind].
  intro H; injection H as <- <-. apply name_inv in E. destruct E as (text & -> & H1 & H2). eauto 10.
Qed.


(** A token at the beginning of the text. *)
Lemma terminal_none tok text s1 : format_token alphabetic F tok text -> is_string tok = false -> terminal (text ++ s1) = None.
Proof.
  intros H Hs. apply first_of_text in H. destruct H as (c & r & -> & H). apply terminal_other; intros ->.
  - assert (K := first_of_kind tok (TokString dquote []) dquote H (or_intror eq_refl)). destruct tok; discriminate.
  - assert (K := first_of_kind tok (TokString squote []) squote H (or_introl eq_refl)). destruct tok; discriminate.
Qed.

Lemma name_none tok text s1 : format_token alphabetic F tok text -> is_name tok = false -> name alphabetic F (text ++ s1) = None.
Proof.
  intros H Hs. destruct (name alphabetic F (text ++ s1)) as [[n s2]|] eqn:E; [|reflexivity]. exfalso.
  apply name_inv in E. destruct E as (text' & E & Ht & _). apply first_of_text in H, Ht.
  destruct H as (c & r & -> & H), Ht as (c' & r' & -> & H'). injection E as E _. subst c'.
  assert (K := first_of_kind _ _ _ H H'). destruct tok; discriminate.
Qed.

Lemma p_char_first tok tok' c text s1 : format_token alphabetic F tok text -> first_of tok' c -> kind tok <> kind tok' ->
  p_char c (text ++ s1) = None.
Proof.
  intros H H' Hk. apply first_of_text in H. destruct H as (x & r & -> & H). cbn. destruct (N.eqb_spec x c) as [->|_]; [|reflexivity].
  destruct Hk. eapply first_of_kind; eassumption.
Qed.

Lemma char_none c tok text s1 : format_token alphabetic F tok text -> In c [c_open; c_close; c_lbrack; c_rbrack] ->
  tok <> TokOpen \/ c <> c_open -> tok <> TokClose \/ c <> c_close ->
  tok <> TokOpenOpt \/ c <> c_lbrack -> tok <> TokCloseOpt \/ c <> c_rbrack -> p_char c (text ++ s1) = None.
Proof.
  intros H Hc H1 H2 H3 H4. destruct Hc as [<-|[<-|[<-|[<-|[]]]]].
  - apply (p_char_first tok TokOpen); [exact H|reflexivity|]. destruct tok; try discriminate. destruct H1 as [H1|H1]; contradiction.
  - apply (p_char_first tok TokClose); [exact H|reflexivity|]. destruct tok; try discriminate. destruct H2 as [H2|H2]; contradiction.
  - apply (p_char_first tok TokOpenOpt); [exact H|reflexivity|]. destruct tok; try discriminate. destruct H3 as [H3|H3]; contradiction.
  - apply (p_char_first tok TokCloseOpt); [exact H|reflexivity|]. destruct tok; try discriminate. destruct H4 as [H4|H4]; contradiction.
Qed.

Lemma separator_none tok text s1 : format_token alphabetic F tok text -> is_define tok = false ->
  p_tag (f_separator F) (text ++ s1) = None.
Proof.
  intros H Hs. destruct (p_tag (f_separator F) (text ++ s1)) as [r|] eqn:E; [|reflexivity]. exfalso. apply p_tag_spec in E.
  apply first_of_text in H. destruct H as (c & r' & -> & H). pose proof HF as [_ (d & ds & Ed & _)]. rewrite Ed in E.
  injection E as -> _. assert (K : kind tok = kind (TokDefine true)) by (eapply first_of_kind; [exact H|exists ds; exact Ed]).
  destruct tok; discriminate.
Qed.

Lemma alternative_none tok text s1 : format_token alphabetic F tok text -> tok <> TokAlt ->
  p_char (f_alternative F) (text ++ s1) = None.
Proof.
  intros H Hs. apply (p_char_first tok TokAlt); [exact H|reflexivity|]. destruct tok; try discriminate. contradiction.
Qed.

(** Nothing can be read from the empty text. *)
Lemma name_empty : name alphabetic F [] = None.
Proof. unfold name. destruct (f_delimiter F) as [[a b]|]; reflexivity. Qed.
Lemma separator_empty : p_tag (f_separator F) [] = None.
Proof. destruct HF as [_ (d & ds & -> & _)]. reflexivity. Qed.
End Tokens.

Section Sound.
Variable alphabetic : char -> bool.
Variable F : format.
Hypothesis HF : readable alphabetic F.
Notation spells := (format_spells alphabetic F).
Notation ws := whitespace_plus_comments.

(** ** Soundness *)

Definition sound {A} (item : A -> list token -> Prop) (p : str -> pres A) : Prop :=
  forall s a r, p s = Ok (Some (a, r)) -> exists toks, item a toks /\ clean r /\
    forall toks', spells toks' r -> spells (toks ++ toks') s.

Lemma terminal_sound s t r : terminal s = Some (t, r) -> exists toks, simple_toks t toks /\ clean r /\
  forall toks', spells toks' r -> spells (toks ++ toks') s.
Proof.
  intro H. apply terminal_inv in H. destruct H as (q & x & s1 & -> & Hq & Hx & -> & ->).
  exists [TokString q x]. split; [constructor|]. split; [apply clean_ws|]. intros toks' H.
  apply spells_intro; auto; try discriminate. constructor; assumption.
Qed.
Lemma nonterminal_sound s t r : nonterminal alphabetic F s = Some (t, r) -> exists toks, simple_toks t toks /\ clean r /\
  forall toks', spells toks' r -> spells (toks ++ toks') s.
Proof.
  intro H. apply nonterminal_inv in H; [|assumption]. destruct H as (n & text & s1 & -> & -> & Ht & He & ->).
  exists [TokName n]. split; [constructor|]. split; [apply clean_ws|]. intros toks' H.
  apply spells_intro; auto; try discriminate.
Qed.
Lemma parse_term_sound : sound simple_toks (fun s => Ok (parse_term alphabetic F s)).
Proof.
  intros s t r H. injection H as H. unfold parse_term in H. destruct (terminal s) as [[t' r']|] eqn:E.
  - injection H as -> ->. apply terminal_sound. assumption.
  - apply nonterminal_sound. assumption.
Qed.
Lemma nbs_sound {A} item (p : str -> pres A) : sound item p -> sound item (fun s => not_before_separator F (p s)).
Proof.
  intros H s a r E. apply H. unfold not_before_separator in E. destruct (p s) as [[[a' r']|]| |]; cbn in E; try discriminate.
  destruct (p_tag _ r'); congruence.
Qed.

Lemma many1_loop_sound {A} item (p : str -> pres A) : sound item p -> forall fuel acc s l r,
  many1_loop fuel p acc s = Ok (Some (l, r)) -> exists l' toks, l = acc ++ l' /\ items item l' toks /\ (clean s -> clean r) /\
    forall toks', spells toks' r -> spells (toks ++ toks') s.
Proof.
  intro Hp. induction fuel as [|fuel IH]; intros acc s l r H; [discriminate|]. cbn [many1_loop] in H.
  destruct (p s) as [[[a s']|]| |] eqn:E; try discriminate.
  - destruct (Nat.eqb _ _); [discriminate|]. apply IH in H. destruct H as (l' & toks & -> & H1 & H2 & H3).
    destruct (Hp _ _ _ E) as (toks1 & H4 & H5 & H6).
    exists (a :: l'), (toks1 ++ toks). split; [rewrite <- app_assoc; reflexivity|]. split; [constructor; assumption|].
    split; [auto|]. intros toks' H. rewrite <- app_assoc. auto.
  - injection H as <- <-. exists [], []. split; [symmetry; apply app_nil_r|]. split; [constructor|]. auto.
Qed.
Lemma many1_sound {A} item (p : str -> pres A) fuel : sound item p -> sound (nonempty item) (many1 fuel p).
Proof.
  intros Hp s l r H. unfold many1 in H. destruct (p s) as [[[a s']|]| |] eqn:E; try discriminate. cbn [pbind] in H.
  apply (many1_loop_sound item p Hp) in H. destruct H as (l' & toks & -> & H1 & H2 & H3).
  destruct (Hp _ _ _ E) as (toks1 & H4 & H5 & H6). exists (toks1 ++ toks).
  split; [split; [discriminate|constructor; assumption]|]. split; [auto|]. intros toks' H. rewrite <- app_assoc. auto.
Qed.
Lemma expression_next_sound s r : expression_next F s = Some r -> clean r /\ forall toks', spells toks' r -> spells (TokAlt :: toks') s.
Proof.
  unfold expression_next. destruct (p_char (f_alternative F) s) as [s1|] eqn:E; [|discriminate]. cbn [obind].
  intro H; injection H as <-. apply p_char_suffix in E. subst s. split; [apply clean_ws|]. intros toks' H.
  apply (spells_intro alphabetic F HF TokAlt toks' [f_alternative F] s1); auto; try discriminate.
  constructor.
Qed.
Lemma xt_list_sound {A} item (p : str -> pres A) : sound item p -> forall fuel acc s l r,
  xt_list fuel p (expression_next F) acc s = Ok (Some (l, r)) -> exists l' toks, l = acc ++ l' /\ alts item l' toks /\ clean r /\
    forall toks', spells toks' r -> spells (toks ++ toks') s.
Proof.
  intro Hp. induction fuel as [|fuel IH]; intros acc s l r H; [discriminate|]. cbn [xt_list] in H.
  destruct (p s) as [[[a s1]|]| |] eqn:E; try discriminate. cbn [pbind] in H. destruct (Hp _ _ _ E) as (toks1 & H4 & H5 & H6).
  destruct (expression_next F s1) as [s2|] eqn:E2.
  - apply IH in H. destruct H as (l' & toks & -> & H1 & H2 & H3).
    destruct (expression_next_sound _ _ E2) as [_ H7].
    exists (a :: l'), (toks1 ++ TokAlt :: toks). split; [rewrite <- app_assoc; reflexivity|].
    split; [constructor; assumption|]. split; [assumption|]. intros toks' H. rewrite <- app_assoc. cbn. auto.
  - injection H as <- <-. exists [a], toks1. split; [reflexivity|]. split; [constructor; assumption|]. auto.
Qed.

Lemma rhs_of_sound fuel p : sound term_toks p -> sound alts_toks (rhs_of F fuel p).
Proof.
  intros Hp s l r H. unfold rhs_of in H. apply (xt_list_sound (nonempty term_toks)) in H.
  - destruct H as (l' & toks & -> & H1 & H2). exists toks. split; [|assumption]. apply alts_alts. assumption.
  - apply many1_sound, nbs_sound, Hp.
Qed.

Lemma bracketed_sound fuel p a b s es r (op cl : token) : sound term_toks p ->
  (op = TokOpen \/ op = TokOpenOpt) -> cl = TokClose \/ cl = TokCloseOpt ->
  format_token alphabetic F op [a] -> format_token alphabetic F cl [b] ->
  bracketed a b (rhs_of F fuel p) s = Ok (Some (es, r)) ->
  exists toks, alts_toks es toks /\ clean r /\ forall toks', spells toks' r -> spells ((op :: toks ++ [cl]) ++ toks') s.
Proof.
  intros Hp Hop Hcl Ta Tb H. unfold bracketed in H.
  destruct (p_char a s) as [s1|] eqn:E1; [|discriminate]. cbn [option_map pbind] in H. apply p_char_suffix in E1.
  destruct (rhs_of F fuel p s1) as [[[es' s2]|]| |] eqn:E2; try discriminate. cbn [pbind] in H.
  destruct (p_char b s2) as [s3|] eqn:E3; [|discriminate]. cbn [option_map pbind] in H. apply p_char_suffix in E3.
  injection H as -> <-. apply rhs_of_sound in E2; [|assumption]. destruct E2 as (toks & H1 & _ & H2).
  exists toks. split; [assumption|]. split; [apply clean_ws|]. intros toks' H. subst s s2.
  cbn [app]. apply (spells_intro_open alphabetic F op _ [a] s1); [assumption| |assumption].
  rewrite <- app_assoc. apply H2. cbn [app].
  apply (spells_intro alphabetic F HF cl toks' [b] s3); auto; destruct Hcl as [->| ->]; discriminate.
Qed.

Lemma read_term_sound fuel : sound term_toks (read_term alphabetic F fuel).
Proof.
  induction fuel as [|fuel IH]; intros s t r H; [discriminate|]. cbn [read_term] in H.
  destruct (terminal s) as [[t' r']|] eqn:E1.
  { injection H as <- <-. apply terminal_sound. assumption. }
  destruct (nonterminal alphabetic F s) as [[t' r']|] eqn:E2.
  { injection H as <- <-. apply nonterminal_sound. assumption. }
  destruct (bracketed c_open c_close _ s) as [[[es r']|]| |] eqn:E3; try discriminate.
  - injection H as <- <-.
    eapply (bracketed_sound _ _ _ _ _ _ _ TokOpen TokClose) in E3; auto; try (constructor; fail).
    destruct E3 as (toks & H1 & H2 & H3). eexists. split; [constructor; exact H1|]. split; assumption.
  - destruct (bracketed c_lbrack c_rbrack _ s) as [[[es r']|]| |] eqn:E4; try discriminate.
    cbn [pbind] in H. injection H as <- <-.
    eapply (bracketed_sound _ _ _ _ _ _ _ TokOpenOpt TokCloseOpt) in E4; auto; try (constructor; fail).
    destruct E4 as (toks & H1 & H2 & H3). eexists. split; [constructor; exact H1|]. split; assumption.
Qed.

Lemma after_lhs_sound s r : after_lhs F s = Some r -> clean r /\ exists inc, forall toks', spells toks' r -> spells (TokDefine inc :: toks') s.
Proof.
  unfold after_lhs. destruct (p_tag (f_separator F) s) as [s1|] eqn:E; [|discriminate]. cbn [obind]. apply p_tag_spec in E.
  intro H; injection H as <-. split; [apply clean_ws|]. subst s.
  destruct (p_char (f_alternative F) s1) as [s2|] eqn:E.
  - apply p_char_suffix in E. subst s1. exists true. intros toks' H.
    replace (f_separator F ++ f_alternative F :: s2) with ((f_separator F ++ [f_alternative F]) ++ s2) by (rewrite <- app_assoc; reflexivity).
    apply (spells_intro alphabetic F HF); auto; try discriminate. constructor.
  - exists false. intros toks' H. apply (spells_intro alphabetic F HF); auto; try discriminate. constructor.
Qed.
Lemma read_prod_lhs_sound s n r : read_prod_lhs alphabetic F s = Some (n, r) -> clean r /\ exists inc, forall toks', spells toks' r -> spells (TokName n :: TokDefine inc :: toks') s.
Proof.
  unfold read_prod_lhs. destruct (name alphabetic F s) as [[n' s1]|] eqn:E; [|discriminate]. cbn [obind].
  destruct (after_lhs F (ws s1)) as [s2|] eqn:E2; [|discriminate]. cbn [obind]. intro H; injection H as -> ->.
  apply after_lhs_sound in E2. destruct E2 as [H1 (inc & H2)]. split; [assumption|]. exists inc. intros toks' H.
  apply name_inv in E; [|assumption]. destruct E as (text & -> & H3 & H4).
  apply (spells_intro alphabetic F HF); auto; discriminate.
Qed.
Lemma prod_lhs_sound s t r : prod_lhs alphabetic F s = Some (t, r) -> clean r /\ exists n inc, t = Nonterminal n /\ forall toks', spells toks' r -> spells (TokName n :: TokDefine inc :: toks') s.
Proof.
  unfold prod_lhs, nonterminal. destruct (name alphabetic F s) as [[n' s1]|] eqn:E; [|discriminate]. cbn [obind].
  destruct (after_lhs F (ws s1)) as [s2|] eqn:E2; [|discriminate]. cbn [obind]. intro H; injection H as <- <-.
  destruct (read_prod_lhs_sound s n' s2) as [H1 (inc & H2)].
  { unfold read_prod_lhs. rewrite E. cbn [obind]. rewrite E2. reflexivity. }
  split; [assumption|]. exists n', inc. auto.
Qed.

Lemma read_production_sound fuel : sound production_toks (read_production alphabetic F fuel).
Proof.
  intros s p r H. unfold read_production in H. destruct (read_prod_lhs alphabetic F s) as [[n s1]|] eqn:E1; [|discriminate].
  cbn [pbind] in H. destruct (rhs_of F fuel _ s1) as [[[rhs s2]|]| |] eqn:E2; try discriminate. cbn [pbind] in H.
  assert (E : p = mkParsed n rhs /\ r = s2).
  { destruct s2 as [|c s2]; [injection H; auto|]. destruct (read_prod_lhs alphabetic F (c :: s2)); [injection H; auto|discriminate]. }
  destruct E as [-> ->]. apply rhs_of_sound in E2; [|apply read_term_sound].
  apply read_prod_lhs_sound in E1. destruct E1 as [_ (inc & H1)], E2 as (toks & H2 & H3 & H4).
  exists (TokName n :: TokDefine inc :: toks). split; [exists inc, toks; auto|]. split; [assumption|].
  intros toks' H5. cbn [app]. auto.
Qed.

Lemma prod_rhs_sound fuel : sound (alts (nonempty simple_toks)) (prod_rhs alphabetic F fuel).
Proof.
  intros s l r H. unfold prod_rhs in H. apply (xt_list_sound (nonempty simple_toks)) in H.
  - destruct H as (l' & toks & -> & H1 & H2). exists toks. split; assumption.
  - apply (many1_sound simple_toks). apply nbs_sound, parse_term_sound.
Qed.

Lemma parse_production_sound fuel : sound plain_toks (parse_production alphabetic F fuel).
Proof.
  intros s p r H. unfold parse_production in H. destruct (prod_lhs alphabetic F s) as [[lhs s1]|] eqn:E1; [|discriminate].
  cbn [pbind] in H. destruct (prod_rhs alphabetic F fuel s1) as [[[rhs s2]|]| |] eqn:E2; try discriminate. cbn [pbind] in H.
  destruct (production_end alphabetic F s2); [|discriminate]. injection H as <- <-.
  apply prod_rhs_sound in E2. apply prod_lhs_sound in E1. destruct E1 as [_ (n & inc & -> & H1)], E2 as (toks & H2 & H3 & H4).
  exists (TokName n :: TokDefine inc :: toks). split.
  - eexists. split; [reflexivity|]. exists inc, toks. split; [|reflexivity]. apply simple_alts. assumption.
  - split; [assumption|]. intros toks' H5. cbn [app]. auto.
Qed.

(** Leading layout is only skipped before productions. *)
Definition sound_ws {A} (item : A -> list token -> Prop) (p : str -> pres A) : Prop :=
  forall s a r, p s = Ok (Some (a, r)) -> exists toks, item a toks /\ clean r /\
    forall toks', spells toks' r -> spells (toks ++ toks') (ws s).

Lemma read_grammar_sound s g : parsed_grammar_complete alphabetic F s = Ok (Some g) -> format_text alphabetic F g s.
Proof.
  unfold parsed_grammar_complete. intro H.
  assert (H' : read_grammar alphabetic F (fuel_for s) s = Ok (Some (g, []))).
  { destruct (read_grammar _ _ _ s) as [[[g' [|c r]]|]| |]; cbn in H; try discriminate. injection H as ->. reflexivity. }
  clear H. unfold read_grammar in H'.
  set (p := fun s0 : str => read_production alphabetic F (fuel_for s) (ws s0)) in H'.
  assert (Hp : sound_ws production_toks p).
  { intros s0 a r H. apply read_production_sound in H. exact H. }
  assert (Hl : forall fuel acc s l, clean s -> many1_loop fuel p acc s = Ok (Some (l, [])) ->
            exists l' toks, l = acc ++ l' /\ items production_toks l' toks /\ spells toks s).
  { induction fuel as [|fuel IH]; intros acc s0 l Hc H; [discriminate|]. cbn [many1_loop] in H.
    destruct (p s0) as [[[a s1]|]| |] eqn:E; try discriminate.
    - destruct (Nat.eqb _ _); [discriminate|]. destruct (Hp _ _ _ E) as (toks1 & H1 & H2 & H3).
      apply IH in H; [|assumption]. destruct H as (l' & toks & -> & H4 & H5).
      exists (a :: l'), (toks1 ++ toks). split; [rewrite <- app_assoc; reflexivity|]. split; [constructor; assumption|].
      rewrite <- Hc. auto.
    - injection H as <- ->. exists [], []. split; [symmetry; apply app_nil_r|]. split; [constructor|]. constructor. left; reflexivity. }
  unfold many1 in H'. destruct (p (ws s)) as [[[a s1]|]| |] eqn:E; try discriminate. cbn [pbind] in H'.
  destruct (Hp _ _ _ E) as (toks1 & H1 & H2 & H3). apply Hl in H'; [|assumption].
  destruct H' as (l' & toks & -> & H4 & H5). apply H3 in H5. rewrite (clean_ws s) in H5.
  apply spells_unskip in H5; [|assumption]. destruct H5 as (lay & rest & -> & Hlay & Hsp).
  exists lay, rest, (toks1 ++ toks). split; [reflexivity|]. split; [assumption|]. split; [discriminate|].
  split; [|assumption]. apply productions_items. constructor; assumption.
Qed.
End Sound.


Section Complete.
Variable alphabetic : char -> bool.
Variable F : format.
Hypothesis HF : readable alphabetic F.
Notation spells := (format_spells alphabetic F).
Notation ws := whitespace_plus_comments.

(** [r] is what remains of [s] after at least one token. *)
Definition eats (toks : list token) (s r : str) : Prop :=
  spells toks r /\ clean r /\ exists pre, pre <> [] /\ s = pre ++ r.

Lemma eats_shorter toks s r : eats toks s r -> length r < length s.
Proof. intros (_ & _ & pre & Hp & ->). rewrite app_length. destruct pre; [contradiction|]. cbn. lia. Qed.
Lemma eats_bytes toks s r : eats toks s r -> Nat.eqb (byte_len r) (byte_len s) = false.
Proof. intros (_ & _ & pre & Hp & ->). apply Nat.eqb_neq, proper_bytes. assumption. Qed.
Lemma eats_trans t1 t2 a b c : eats t1 a b -> eats t2 b c -> eats t2 a c.
Proof.
  intros (_ & _ & p & Hp & ->) (H1 & H2 & q & Hq & ->). split; [assumption|]. split; [assumption|].
  exists (p ++ q). split; [destruct p; [contradiction|discriminate]|]. rewrite app_assoc. reflexivity.
Qed.

Lemma text_nonempty tok text : format_token alphabetic F tok text -> text <> [].
Proof. intro H. apply token_first in H; [|assumption]. destruct H as (c & r & -> & _). discriminate. Qed.

Lemma eats_ws tok text toks s1 : format_token alphabetic F tok text -> spells toks (ws s1) -> eats toks (text ++ s1) (ws s1).
Proof.
  intros Ht Hs. split; [assumption|]. split; [apply clean_ws|]. destruct (ws_suffix s1) as [pre E].
  exists (text ++ pre). split; [|rewrite <- app_assoc; congruence].
  pose proof (text_nonempty _ _ Ht). destruct text; [contradiction|discriminate].
Qed.

Definition complete {A} (item : A -> list token -> Prop) (follow : list token -> Prop) (bound : nat) (p : str -> pres A) : Prop :=
  forall a ts toks s, item a ts -> follow toks -> length s < bound -> spells (ts ++ toks) s ->
    exists r, p s = Ok (Some (a, r)) /\ eats toks s r.

Lemma terminal_complete q x toks s : spells (TokString q x :: toks) s -> exists r, terminal s = Some (Terminal x, r) /\ eats toks s r.
Proof.
  intro H. apply spells_inv in H; [|assumption]. destruct H as (text & s1 & -> & Ht & Hs & _).
  pose proof (eats_ws _ _ _ _ Ht Hs). apply format_token_inv in Ht. destruct Ht as (-> & Hq & Hx).
  exists (ws s1). split; [apply terminal_make|]; assumption.
Qed.
Lemma name_complete n toks s : spells (TokName n :: toks) s -> exists s1, name alphabetic F s = Some (n, s1) /\ eats toks s (ws s1).
Proof.
  intro H. apply spells_inv in H; [|assumption]. destruct H as (text & s1 & -> & Ht & Hs & _ & He).
  exists s1. split; [apply name_make; auto; intro E; eapply He; eauto|]. eapply eats_ws; eassumption.
Qed.
Lemma nonterminal_complete n toks s : spells (TokName n :: toks) s ->
  terminal s = None /\ exists r, nonterminal alphabetic F s = Some (Nonterminal n, r) /\ eats toks s r.
Proof.
  intro H. split.
  - apply spells_inv in H; [|assumption]. destruct H as (text & s1 & -> & Ht & _).
    eapply terminal_none; [exact HF|exact Ht|reflexivity].
  - apply name_complete in H. destruct H as (s1 & E & He). exists (ws s1). unfold nonterminal. rewrite E. auto.
Qed.

Lemma simple_complete t ts toks s : simple_toks t ts -> spells (ts ++ toks) s ->
  exists r, parse_term alphabetic F s = Some (t, r) /\ eats toks s r.
Proof.
  intros Ht Hs. unfold parse_term. inversion Ht; subst; cbn [app] in Hs.
  - destruct (terminal_complete _ _ _ _ Hs) as (r & -> & H). eauto.
  - destruct (nonterminal_complete _ _ _ Hs) as (-> & r & -> & H). eauto.
Qed.

(** No term begins where a right hand side ends. *)
Lemma separator_complete inc toks s : spells (TokDefine inc :: toks) s -> exists s1, p_tag (f_separator F) s = Some s1.
Proof.
  intro H. apply spells_inv in H; [|assumption]. destruct H as (text & s1 & -> & Ht & _). apply format_token_inv in Ht. subst text.
  eexists. apply p_tag_spec. rewrite <- app_assoc. reflexivity.
Qed.
Lemma separator_no_define toks s : no_define toks -> spells toks s -> clean s -> p_tag (f_separator F) s = None.
Proof.
  intros Hn H Hc. inversion H as [s' Hl E1 E2|tok text lay rest toks' Ht Hl Ho Hna Hs E1 E2]; subst.
  - unfold clean, ws in Hc. rewrite (skip_last s Hl) in Hc. rewrite <- Hc. apply (separator_empty alphabetic F HF).
  - eapply separator_none; [exact HF|exact Ht|]. destruct tok; try reflexivity. contradiction.
Qed.

Lemma end_fails {A} (toks : list token) (s : str) (x : pres A) : ends_alt toks -> spells toks s -> clean s ->
  (forall n inc toks', toks = TokName n :: TokDefine inc :: toks' -> exists a r, x = Ok (Some (a, r)) /\ eats (TokDefine inc :: toks') s r) ->
  (terminal s = None -> name alphabetic F s = None -> p_char c_open s = None -> p_char c_lbrack s = None -> x = Ok None) ->
  not_before_separator F x = Ok None.
Proof.
  intros He H Hc H1 H2.
  assert (Hplain : forall tok text s1 toks', toks = tok :: toks' -> s = text ++ s1 -> format_token alphabetic F tok text ->
            is_name tok = false -> is_string tok = false -> tok <> TokOpen -> tok <> TokOpenOpt -> not_before_separator F x = Ok None).
  { intros tok text s1 toks' -> -> Ht E1 E2 E3 E4. rewrite H2; [reflexivity| | | |].
    - eapply terminal_none; eauto.
    - eapply name_none; eauto.
    - eapply char_none; eauto; try (right; discriminate). left; reflexivity.
    - eapply char_none; eauto; try (right; discriminate). right; right; left; reflexivity. }
  inversion H as [s' Hl E1 E2|tok text lay rest toks' Ht Hl Ho Hna Hs E1 E2]; subst.
  - unfold clean, ws in Hc. rewrite (skip_last s Hl) in Hc. subst s. rewrite H2; try reflexivity. apply name_empty.
  - destruct tok; cbn in He; try contradiction; try (eapply Hplain; eauto; discriminate).
    destruct toks' as [|[] toks']; cbn in He; try contradiction.
    destruct (H1 _ _ _ eq_refl) as (a & r & -> & Hea). cbn. destruct Hea as (Hr & _).
    destruct (separator_complete _ _ _ Hr) as [s1 ->]. reflexivity.
Qed.

(** ** Lists *)

Lemma many1_loop_complete {A} (item : A -> list token -> Prop) (follow stop : list token -> Prop) bound p :
  complete item follow bound p ->
  (forall a ts toks, item a ts -> follow (ts ++ toks)) -> (forall toks, stop toks -> follow toks) ->
  (forall toks s, stop toks -> length s < bound -> spells toks s -> clean s -> p s = Ok None) ->
  forall l ts, items item l ts -> forall fuel acc toks s, stop toks -> length s < bound -> length s < fuel -> clean s ->
    spells (ts ++ toks) s ->
    exists r, many1_loop fuel p acc s = Ok (Some (acc ++ l, r)) /\ (l = [] /\ ts = [] /\ r = s \/ eats toks s r).
Proof.
  intros Hp Hf1 Hf2 Hstop. induction 1 as [|a l ts ts' Ha Hl IH]; intros fuel acc toks s Hs Hb Hfu Hc Hsp.
  - destruct fuel as [|fuel]; [lia|]. cbn [many1_loop]. rewrite (Hstop toks s) by assumption.
    exists s. rewrite app_nil_r. auto.
  - destruct fuel as [|fuel]; [lia|]. cbn [many1_loop]. rewrite <- app_assoc in Hsp.
    assert (Hfo : follow (ts' ++ toks)).
    { destruct Hl; [apply Hf2; assumption|]. rewrite <- app_assoc. eapply Hf1. eassumption. }
    destruct (Hp a ts (ts' ++ toks) s Ha Hfo Hb Hsp) as (r & -> & He). rewrite (eats_bytes _ _ _ He).
    pose proof (eats_shorter _ _ _ He). destruct He as (H1 & H2 & H3) eqn:Eh. 
    destruct (IH fuel (acc ++ [a]) toks r Hs) as (r' & -> & Hr'); try lia; try assumption.
    exists r'. rewrite <- app_assoc. split; [reflexivity|]. right.
    destruct Hr' as [(-> & -> & ->)|Hr']; [split; [exact H1|]; split; [exact H2|exact H3]|].
    eapply eats_trans; eassumption.
Qed.

Lemma many1_complete {A} (item : A -> list token -> Prop) (follow stop : list token -> Prop) bound p fuel :
  complete item follow bound p ->
  (forall a ts toks, item a ts -> follow (ts ++ toks)) -> (forall toks, stop toks -> follow toks) ->
  (forall toks s, stop toks -> length s < bound -> spells toks s -> clean s -> p s = Ok None) ->
  bound <= fuel -> complete (nonempty item) stop bound (many1 fuel p).
Proof.
  intros Hp Hf1 Hf2 Hstop Hfu l ts toks s [Hne Hl] Hs Hb Hsp. destruct Hl as [|a l ts ts' Ha Hl]; [contradiction|].
  rewrite <- app_assoc in Hsp. unfold many1.
  assert (Hfo : follow (ts' ++ toks)).
  { destruct Hl; [apply Hf2; assumption|]. rewrite <- app_assoc. eapply Hf1. eassumption. }
  destruct (Hp a ts (ts' ++ toks) s Ha Hfo Hb Hsp) as (r & -> & He). cbn [pbind].
  pose proof (eats_shorter _ _ _ He). pose proof He as (H1 & H2 & H3).
  destruct (many1_loop_complete item follow stop bound p Hp Hf1 Hf2 Hstop l ts' Hl fuel [a] toks r Hs) as (r' & -> & Hr');
    try lia; try assumption.
  exists r'. split; [reflexivity|]. destruct Hr' as [(-> & -> & ->)|Hr']; [exact He|]. eapply eats_trans; eassumption.
Qed.

Lemma alt_complete toks s : spells (TokAlt :: toks) s -> exists r, expression_next F s = Some r /\ eats toks s r.
Proof.
  intro H. apply spells_inv in H; [|assumption]. destruct H as (text & s1 & -> & Ht & Hs & _).
  pose proof (eats_ws _ _ _ _ Ht Hs). apply format_token_inv in Ht. subst text. exists (ws s1). split; [|assumption].
  unfold expression_next. cbn [app]. rewrite p_char_make. reflexivity.
Qed.
Lemma alt_none toks s : ends_rhs toks -> spells toks s -> clean s -> expression_next F s = None.
Proof.
  intros Hn H Hc. unfold expression_next. inversion H as [s' Hl E1 E2|tok text lay rest toks' Ht Hl Ho Hna Hs E1 E2]; subst.
  - unfold clean, ws in Hc. rewrite (skip_last s Hl) in Hc. rewrite <- Hc. reflexivity.
  - rewrite (alternative_none alphabetic F HF tok text); [reflexivity|exact Ht|].
    intros ->. contradiction.
Qed.

Lemma xt_list_complete {A} (item : A -> list token -> Prop) bound p :
  complete item ends_alt bound p ->
  forall l ts, alts item l ts -> forall fuel acc toks s, ends_rhs toks -> length s < bound -> length s < fuel ->
    spells (ts ++ toks) s ->
    exists r, xt_list fuel p (expression_next F) acc s = Ok (Some (acc ++ l, r)) /\ eats toks s r.
Proof.
  intro Hp. induction 1 as [a ts Ha|a l ts ts' Ha Hl IH]; intros fuel acc toks s Hs Hb Hfu Hsp;
    (destruct fuel as [|fuel]; [lia|]); cbn [xt_list].
  - destruct (Hp a ts toks s Ha (ends_rhs_alt _ Hs) Hb Hsp) as (r & -> & He). cbn [pbind].
    pose proof He as (H1 & H2 & _). rewrite (alt_none _ _ Hs H1 H2). eauto.
  - rewrite <- app_assoc in Hsp. cbn [app] in Hsp.
    destruct (Hp a ts (TokAlt :: ts' ++ toks) s Ha I Hb Hsp) as (r & -> & He). cbn [pbind].
    pose proof He as (H1 & H2 & _). destruct (alt_complete _ _ H1) as (r2 & -> & He2).
    pose proof (eats_shorter _ _ _ He). pose proof (eats_shorter _ _ _ He2). pose proof He2 as (H3 & H4 & _).
    destruct (IH fuel (acc ++ [a]) toks r2 Hs) as (r' & -> & Hr'); try lia; try assumption.
    exists r'. rewrite <- app_assoc. split; [reflexivity|]. eapply eats_trans; [exact He|]. eapply eats_trans; eassumption.
Qed.

(** ** Expressions *)

Lemma nbs_complete {A} (item : A -> list token -> Prop) bound p : complete item (fun _ => True) bound p ->
  complete item no_define bound (fun s => not_before_separator F (p s)).
Proof.
  intros Hp a ts toks s Ha Hn Hb Hs. destruct (Hp a ts toks s Ha I Hb Hs) as (r & -> & He). exists r. split; [|exact He].
  cbn. destruct He as (H1 & H2 & _). rewrite (separator_no_define toks r Hn H1 H2). reflexivity.
Qed.

Lemma nonterminal_none s : name alphabetic F s = None -> nonterminal alphabetic F s = None.
Proof. intro H. unfold nonterminal. rewrite H. reflexivity. Qed.

Lemma expression_of_complete bound fuel p : complete term_toks (fun _ => True) bound p ->
  (forall toks s, ends_alt toks -> length s < bound -> spells toks s -> clean s -> not_before_separator F (p s) = Ok None) ->
  bound <= fuel -> complete (nonempty term_toks) ends_alt bound (expression_of F fuel p).
Proof.
  intros Hp He Hb. apply (many1_complete term_toks no_define ends_alt bound).
  - apply nbs_complete. assumption.
  - intros a ts toks. apply term_no_define.
  - apply ends_alt_no_define.
  - exact He.
  - exact Hb.
Qed.
Lemma rhs_of_complete bound fuel p : complete term_toks (fun _ => True) bound p ->
  (forall toks s, ends_alt toks -> length s < bound -> spells toks s -> clean s -> not_before_separator F (p s) = Ok None) ->
  bound <= fuel -> complete alts_toks ends_rhs bound (rhs_of F fuel p).
Proof.
  intros Hp He Hb l ts toks s Hl Hf Hle Hs. apply alts_alts in Hl. unfold rhs_of.
  apply (xt_list_complete (nonempty term_toks) bound _ (expression_of_complete bound fuel p Hp He Hb) l ts Hl fuel [] toks s); auto. lia.
Qed.

Lemma bracketed_complete a b inner op cl es ts toks s bound :
  op = TokOpen \/ op = TokOpenOpt -> cl = TokClose \/ cl = TokCloseOpt ->
  format_token alphabetic F op [a] -> format_token alphabetic F cl [b] ->
  (forall text, format_token alphabetic F op text -> text = [a]) -> (forall text, format_token alphabetic F cl text -> text = [b]) ->
  complete alts_toks ends_rhs bound inner -> length s <= bound ->
  alts_toks es ts -> spells ((op :: ts ++ [cl]) ++ toks) s ->
  exists r, bracketed a b inner s = Ok (Some (es, r)) /\ eats toks s r.
Proof.
  intros Hop Hcl Ta Tb Ua Ub Hi Hb Hes Hs. cbn [app] in Hs. apply spells_inv in Hs; [|assumption].
  destruct Hs as (text & s1 & -> & Ht & _ & Hs & _). rewrite (Ua _ Ht) in *. specialize (Hs Hop). cbn [app] in *. cbn [length] in Hb.
  rewrite <- app_assoc in Hs. cbn [app] in Hs.
  destruct (Hi es ts (cl :: toks) s1 Hes) as (r1 & E1 & He1); [destruct Hcl as [->| ->]; exact I|lia|exact Hs|].
  pose proof He1 as (H1 & _). apply spells_inv in H1; [|assumption]. destruct H1 as (text2 & s2 & -> & Ht2 & Hs2 & _).
  rewrite (Ub _ Ht2) in *. exists (ws s2). split.
  - unfold bracketed. rewrite p_char_make. cbn [option_map pbind]. rewrite E1. cbn [pbind app]. rewrite p_char_make. reflexivity.
  - pose proof (eats_ws _ _ _ _ Ht2 Hs2) as He2. rewrite (Ub _ Ht2) in He2. pose proof (eats_trans _ _ _ _ _ He1 He2) as (H3 & H4 & pre & H5 & E).
    split; [assumption|]. split; [assumption|]. exists (a :: pre). split; [discriminate|]. cbn. rewrite <- E. reflexivity.
Qed.

Lemma read_term_end f : 0 < f -> forall toks s, ends_alt toks -> spells toks s -> clean s ->
  not_before_separator F (read_term alphabetic F f s) = Ok None.
Proof.
  intros Hf toks s He Hs Hc. destruct f as [|f]; [lia|]. apply (end_fails toks s); auto.
  - intros n inc toks' ->. destruct (nonterminal_complete n (TokDefine inc :: toks') s Hs) as (E1 & r & E2 & Hr).
    cbn [read_term]. rewrite E1, E2. eauto.
  - intros H1 H2 H3 H4. cbn [read_term]. rewrite H1, nonterminal_none by assumption.
    rewrite !bracketed_none by assumption. reflexivity.
Qed.

Lemma read_term_complete f : complete term_toks (fun _ => True) f (read_term alphabetic F f).
Proof.
  induction f as [|f IH]; intros t ts toks s Ht _ Hb Hs; [lia|].
  assert (Hr : complete alts_toks ends_rhs f (rhs_of F f (read_term alphabetic F f))).
  { apply rhs_of_complete; [exact IH| |apply le_n]. intros toks' s' H1 H2. apply read_term_end; [lia|assumption]. }
  cbn [read_term]. destruct Ht as [q x|n|es ts H|es ts H].
  - destruct (terminal_complete _ _ _ _ Hs) as (r & -> & He). eauto.
  - destruct (nonterminal_complete _ _ _ Hs) as (-> & r & -> & He). eauto.
  - pose proof Hs as Hs'. cbn [app] in Hs'. apply spells_inv in Hs'; [|assumption]. destruct Hs' as (text & s1 & E & Htx & _).
    assert (E1 : terminal s = None) by (rewrite E; apply (terminal_none alphabetic F HF TokOpen text s1 Htx eq_refl)).
    assert (E2 : name alphabetic F s = None) by (rewrite E; apply (name_none alphabetic F HF TokOpen text s1 Htx eq_refl)).
    rewrite E1, (nonterminal_none s E2).
    destruct (bracketed_complete c_open c_close (rhs_of F f (read_term alphabetic F f)) TokOpen TokClose es ts toks s f) with (2 := or_introl eq_refl : TokClose = TokClose \/ TokClose = TokCloseOpt) (7 := Hr)
      as (r & Eb & He); auto; try (constructor; fail); try (intros tx Hx; apply format_token_inv in Hx; exact Hx); try lia.
    rewrite Eb. eauto.
  - pose proof Hs as Hs'. cbn [app] in Hs'. apply spells_inv in Hs'; [|assumption]. destruct Hs' as (text & s1 & E & Htx & _).
    assert (E1 : terminal s = None) by (rewrite E; apply (terminal_none alphabetic F HF TokOpenOpt text s1 Htx eq_refl)).
    assert (E2 : name alphabetic F s = None) by (rewrite E; apply (name_none alphabetic F HF TokOpenOpt text s1 Htx eq_refl)).
    rewrite E1, (nonterminal_none s E2).
    assert (E3 : p_char c_open s = None).
    { rewrite E. eapply (char_none alphabetic F HF c_open TokOpenOpt text s1 Htx); first [left; discriminate|right; discriminate|left; reflexivity]. }
    rewrite (bracketed_none c_open c_close _ s E3).
    destruct (bracketed_complete c_lbrack c_rbrack (rhs_of F f (read_term alphabetic F f)) TokOpenOpt TokCloseOpt es ts toks s f) with (2 := or_intror eq_refl : TokCloseOpt = TokClose \/ TokCloseOpt = TokCloseOpt) (7 := Hr)
      as (r & Eb & He); auto; try (constructor; fail); try (intros tx Hx; apply format_token_inv in Hx; exact Hx); try lia.
    rewrite Eb. cbn [pbind]. eauto.
Qed.

Lemma read_rhs_complete f : complete alts_toks ends_rhs f (rhs_of F f (read_term alphabetic F f)).
Proof.
  apply rhs_of_complete; [apply read_term_complete| |apply le_n]. intros toks' s' H1 H2. apply read_term_end; [lia|assumption].
Qed.

(** ** Productions and grammars *)

Lemma after_lhs_complete inc toks s : match toks with TokAlt :: _ => False | [] => False | _ => True end ->
  spells (TokDefine inc :: toks) s -> exists r, after_lhs F s = Some r /\ eats toks s r.
Proof.
  intros Hn H. apply spells_inv in H; [|assumption]. destruct H as (text & s1 & -> & Ht & Hs & _).
  pose proof (eats_ws _ _ _ _ Ht Hs) as He. apply format_token_inv in Ht. exists (ws s1). split; [|assumption].
  unfold after_lhs. rewrite Ht, <- app_assoc.
  destruct inc.
  - rewrite (proj2 (p_tag_spec _ _ ([f_alternative F] ++ s1)) eq_refl). cbn [obind app]. rewrite p_char_make. reflexivity.
  - rewrite (proj2 (p_tag_spec _ _ ([] ++ s1)) eq_refl). cbn [obind app].
    destruct (p_char (f_alternative F) s1) as [s2|] eqn:E; [|reflexivity]. exfalso. apply p_char_suffix in E.
    assert (Hw : ws s1 = s1) by (subst s1; apply (skip_token alphabetic F HF TokAlt [f_alternative F]); constructor). rewrite Hw in Hs.
    inversion Hs as [s' Hl E1 E2|tok text' lay rest toks' Ht' Hl Ho Hna Hs' E1 E2]; subst; [contradiction|].
    assert (Hx : p_char (f_alternative F) (text' ++ lay ++ rest) = None).
    { eapply alternative_none; [exact HF|exact Ht'|]. intros ->. contradiction. }
    rewrite E2, p_char_make in Hx. discriminate.
Qed.

Lemma read_prod_lhs_complete n inc toks s : match toks with TokAlt :: _ => False | [] => False | _ => True end ->
  spells (TokName n :: TokDefine inc :: toks) s -> exists r, read_prod_lhs alphabetic F s = Some (n, r) /\ eats toks s r.
Proof.
  intros Hn H. destruct (name_complete _ _ _ H) as (s1 & E1 & He1). pose proof He1 as (H1 & _).
  destruct (after_lhs_complete inc toks (ws s1) Hn H1) as (r & E2 & He2). exists r. split; [|eapply eats_trans; eassumption].
  unfold read_prod_lhs. rewrite E1. cbn [obind]. rewrite E2. reflexivity.
Qed.
Lemma spells_clean_nil s : spells [] s -> clean s -> s = [].
Proof. intros H Hc. inversion H as [s' Hl E1 E2|]; subst. unfold clean, ws in Hc. rewrite (skip_last s Hl) in Hc. auto. Qed.

Lemma production_follows_lhs toks s : production_follows toks -> spells toks s -> clean s ->
  s = [] \/ exists n r, read_prod_lhs alphabetic F s = Some (n, r).
Proof.
  intros [->|(p & ts & toks' & (inc & ts' & Ha & ->) & ->)] Hs Hc; [left; apply spells_clean_nil; assumption|].
  right. cbn [app] in Hs. destruct (read_prod_lhs_complete (pp_lhs p) inc (ts' ++ toks') s) as (r & E & _); eauto.
  apply (alts_first _ _ _ Ha).
Qed.

Lemma read_production_complete f : complete production_toks production_follows f (read_production alphabetic F f).
Proof.
  intros p ts toks s (inc & ts' & Ha & ->) Hf Hb Hs. cbn [app] in Hs.
  destruct (read_prod_lhs_complete _ _ _ _ (alts_first _ _ toks Ha) Hs) as (r & E1 & He1).
  pose proof He1 as (H1 & _). pose proof (eats_shorter _ _ _ He1).
  destruct (read_rhs_complete f (pp_rhs p) ts' toks r Ha (production_follows_ends _ Hf)) as (r2 & E2 & He2); [lia|exact H1|].
  exists r2. split; [|eapply eats_trans; eassumption]. unfold read_production. rewrite E1. cbn [pbind]. rewrite E2. cbn [pbind].
  replace (mkParsed (pp_lhs p) (pp_rhs p)) with p by (destruct p; reflexivity).
  destruct He2 as (H2 & H3 & _). destruct (production_follows_lhs _ _ Hf H2 H3) as [->|(n & x & E)]; [reflexivity|].
  destruct r2; [reflexivity|]. rewrite E. reflexivity.
Qed.

Lemma ws_production_complete {A} (item : A -> list token -> Prop) follow f (p : str -> pres A) :
  (forall a ts, item a ts -> exists tok ts', ts = tok :: ts') ->
  complete item follow f p -> complete item follow f (fun s => p (ws s)).
Proof.
  intros Hi Hp a ts toks s Ha Hf Hb Hs. destruct (Hi a ts Ha) as (tok & ts' & E).
  assert (Hc : ws s = s).
  { subst ts. cbn [app] in Hs. apply spells_inv in Hs; [|assumption]. destruct Hs as (text & s1 & -> & Ht & _).
    apply (skip_token alphabetic F HF tok). assumption. }
  rewrite Hc. eapply Hp; eassumption.
Qed.

Lemma read_grammar_complete s g : format_text alphabetic F g s -> parsed_grammar_complete alphabetic F s = Ok (Some g).
Proof.
  intros (lay & rest & toks & -> & Hl & Hne & Hg & Hs). unfold parsed_grammar_complete, read_grammar.
  set (f := fuel_for (lay ++ rest)). unfold ws at 2. rewrite skip_layout by assumption.
  assert (Hc : skip false rest = rest).
  { destruct g as [|p g]; [contradiction|]. inversion Hg as [|p' g' ts ts' (inc & ts'' & _ & ->) _ E1 E2]; subst.
    cbn [app] in Hs. apply spells_inv in Hs; [|assumption]. destruct Hs as (text & s1 & -> & Ht & _).
    eapply skip_token; eassumption. }
  rewrite Hc. apply productions_items in Hg.
  assert (Hb : length rest < f) by (unfold f, fuel_for; rewrite app_length; lia).
  assert (Hp : complete production_toks production_follows f (fun s => read_production alphabetic F f (ws s))).
  { apply ws_production_complete; [|apply read_production_complete]. intros a ts (inc & ts' & _ & ->). eauto. }
  destruct (many1_complete production_toks production_follows (fun toks => toks = []) f _ f Hp) with (a := g) (ts := toks) (toks := @nil token) (s := rest)
    as (r & E & He); auto.
  - intros a ts toks' H. right. eauto.
  - intros toks' ->. left; reflexivity.
  - intros toks' s -> _ H1 H2. rewrite (spells_clean_nil s H1 H2). unfold read_production, read_prod_lhs. rewrite name_empty. reflexivity.
  - split; assumption.
  - rewrite app_nil_r. assumption.
  - unfold many1 in *. rewrite E. destruct He as (H1 & H2 & _). rewrite (spells_clean_nil r H1 H2). reflexivity.
Qed.
End Complete.


Section Main.
Variable alphabetic : char -> bool.
Variable F : format.
Hypothesis HF : readable alphabetic F.
Notation spells := (format_spells alphabetic F).
Notation ws := whitespace_plus_comments.

Lemma all_consuming_some {A} (x : pres A) a : all_consuming x = Ok (Some a) <-> x = Ok (Some (a, [])).
Proof.
  split; [|intros ->; reflexivity]. destruct x as [[[b [|c r]]|]| |]; cbn; intro H; try discriminate. injection H as ->. reflexivity.
Qed.

Lemma grammar_exact s pg : parsed_grammar_complete alphabetic F s = Ok (Some pg) <-> format_text alphabetic F pg s.
Proof. split; [apply read_grammar_sound|apply read_grammar_complete]; assumption. Qed.

(** ** The fast path *)

Lemma plain_grammar_sound s g : all_consuming (plain_grammar alphabetic F (fuel_for s) s) = Ok (Some g) ->
  exists pg, Forall2 (fun p p' => plain p = Some p') g pg /\ format_text alphabetic F pg s.
Proof.
  rewrite all_consuming_some. unfold plain_grammar. intro H.
  set (fuel := fuel_for s) in H. set (p := fun s0 : str => parse_production alphabetic F fuel (whitespace_plus_comments s0)) in H.
  assert (Hp : forall s a r, p s = Ok (Some (a, r)) -> exists toks, plain_toks a toks /\ clean r /\
      forall toks', spells toks' r -> spells (toks ++ toks') (whitespace_plus_comments s)).
  { intros s0 a r H0. apply (parse_production_sound alphabetic F HF) in H0. exact H0. }
  assert (Hl : forall f acc s l, clean s -> many1_loop f p acc s = Ok (Some (l, [])) ->
            exists l' toks, l = acc ++ l' /\ items plain_toks l' toks /\ spells toks s).
  { induction f as [|f IH]; intros acc s0 l Hc H0; [discriminate|]. cbn [many1_loop] in H0.
    destruct (p s0) as [[[a s1]|]| |] eqn:E; try discriminate.
    - destruct (Nat.eqb _ _); [discriminate|]. destruct (Hp _ _ _ E) as (toks1 & H1 & H2 & H3).
      apply IH in H0; [|assumption]. destruct H0 as (l' & toks & -> & H4 & H5).
      exists (a :: l'), (toks1 ++ toks). split; [rewrite <- app_assoc; reflexivity|]. split; [constructor; assumption|].
      rewrite <- Hc. auto.
    - injection H0 as <- ->. exists [], []. split; [symmetry; apply app_nil_r|]. split; [constructor|]. constructor. left; reflexivity. }
  change (parse_production alphabetic F fuel (whitespace_plus_comments s)) with (p s) in H.
  destruct (p s) as [[[p1 s1]|]| |] eqn:E1; try discriminate. cbn [pbind] in H.
  unfold many1 in H. destruct (p s1) as [[[p2 s2]|]| |] eqn:E2; try discriminate. cbn [pbind] in H.
  destruct (many1_loop fuel p [p2] s2) as [[[l r]|]| |] eqn:E3; try discriminate. cbn [pbind] in H. injection H as <- ->.
  destruct (Hp _ _ _ E1) as (toks1 & T1 & C1 & S1). destruct (Hp _ _ _ E2) as (toks2 & T2 & C2 & S2).
  apply Hl in E3; [|assumption]. destruct E3 as (l' & toks3 & -> & T3 & S3).
  apply S2 in S3. rewrite C1 in S3. apply S1 in S3. apply spells_unskip in S3; [|assumption].
  destruct S3 as (lay & rest & -> & Hlay & Hsp).
  assert (Hi : items plain_toks ([p1] ++ [p2] ++ l') (toks1 ++ toks2 ++ toks3)) by (repeat (constructor; [assumption|]); assumption).
  assert (Hpg : forall g toks, items plain_toks g toks -> exists pg, Forall2 (fun p p' => plain p = Some p') g pg /\ productions_toks pg toks).
  { clear. induction 1 as [|p g ts ts' (p' & E & H) _ (pg & IH1 & IH2)]; [exists []; split; constructor|].
    exists (p' :: pg). split; constructor; auto. }
  destruct (Hpg _ _ Hi) as (pg & H1 & H2). exists pg. split; [exact H1|].
  exists lay, rest, (toks1 ++ toks2 ++ toks3). split; [reflexivity|]. split; [assumption|]. split; [|auto].
  intros ->. inversion H1.
Qed.

(** Whichever path is chosen, the result is that of the extended path. *)
Lemma grammar_complete_extended s : grammar_complete alphabetic F s =
  match parsed_grammar_complete alphabetic F s with
  | Ok (Some pg) => let* g := normalize_parsed_grammar pg in Ok (Some g)
  | Ok None => Ok None
  | Panic => Panic
  | OutOfFuel => OutOfFuel
  end.
Proof.
  unfold grammar_complete.
  destruct (parsed_grammar_complete_total alphabetic F s) as [o Eo]. rewrite Eo. cbn [rbind].
  destruct (grammar_has_extended_syntax s); [destruct o; reflexivity|].
  destruct (plain_grammar_total alphabetic F s) as [[g|] E]; rewrite E; [|destruct o; reflexivity].
  apply plain_grammar_sound in E. destruct E as (pg & H1 & H2). apply grammar_exact in H2. rewrite Eo in H2. injection H2 as ->.
  rewrite (normalize_plain _ _ H1). reflexivity.
Qed.

Lemma grammar_complete_exact s g : grammar_complete alphabetic F s = Ok (Some g) <->
  exists pg, format_text alphabetic F pg s /\ normalize_parsed_grammar pg = Ok g.
Proof.
  rewrite grammar_complete_extended. split.
  - destruct (parsed_grammar_complete alphabetic F s) as [[pg|]| |] eqn:E; try discriminate.
    destruct (normalize_parsed_grammar pg) as [g'| |] eqn:E2; try discriminate. cbn. intro H; injection H as ->.
    exists pg. split; [apply grammar_exact; assumption|assumption].
  - intros (pg & H1 & H2). apply grammar_exact in H1. rewrite H1, H2. reflexivity.
Qed.

End Main.
