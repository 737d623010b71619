(** The text parsers accept exactly the texts of the specification. *)
From Verif Require Export TextSpec TextTotal.
From Coq Require String.
Import String.StringSyntax.

(** ** Layout *)

Lemma newline_dec c : (N.eqb c c_cr || N.eqb c c_lf)%bool = true <-> newline c.
Proof. unfold newline. rewrite orb_true_iff, !N.eqb_eq. unfold c_cr, c_lf. tauto. Qed.

Lemma skip_body body rest : (forall c, In c body -> ~ newline c) -> skip true (body ++ rest) = skip true rest.
Proof.
  induction body as [|c body IH]; intro H; [reflexivity|]. cbn [app skip].
  destruct (N.eqb c c_cr || N.eqb c c_lf)%bool eqn:E.
  - apply newline_dec in E. destruct (H c (or_introl eq_refl) E).
  - cbn [negb]. apply IH. intros x Hx. apply H. right. assumption.
Qed.
Lemma skip_line body nl rest : (forall c, In c body -> ~ newline c) -> newline nl ->
  skip true (body ++ nl :: rest) = skip false rest.
Proof.
  intros H Hn. rewrite skip_body by assumption. cbn [skip]. apply newline_dec in Hn. rewrite Hn. reflexivity.
Qed.

Lemma skip_true_cases s :
  ((forall c, In c s -> ~ newline c) /\ skip true s = []) \/
  exists body nl l, s = body ++ nl :: l /\ (forall c, In c body -> ~ newline c) /\ newline nl /\ skip true s = skip false l.
Proof.
  induction s as [|c s IH]; [left; split; [intros ? []|reflexivity]|]. cbn [skip].
  destruct (N.eqb c c_cr || N.eqb c c_lf)%bool eqn:E; cbn [negb].
  - apply newline_dec in E. right. exists [], c, s. split; [reflexivity|]. split; [intros ? []|]. auto.
  - assert (Hc : ~ newline c) by (intro H; apply newline_dec in H; congruence).
    destruct IH as [[H1 H2]|(body & nl & l & -> & H1 & H2 & H3)].
    + left. split; [|assumption]. intros x [<-|Hx]; auto.
    + right. exists (c :: body), nl, l. repeat split; auto. intros x [<-|Hx]; auto.
Qed.

Lemma skip_split n : forall s, length s <= n -> exists lay rest, s = lay ++ rest /\ layout lay /\
  (skip false s = rest \/ skip false s = [] /\ last_comment rest).
Proof.
  induction n as [|n IH]; intros [|c s] Hl; cbn in Hl; try lia.
  - exists [], []. repeat split; [constructor|left; reflexivity].
  - exists [], []. repeat split; [constructor|left; reflexivity].
  - cbn [skip]. destruct (is_whitespace c) eqn:Ew.
    + destruct (IH s) as (lay & rest & -> & H1 & H2); [lia|]. exists (c :: lay), rest. repeat split; [constructor|]; assumption.
    + destruct (N.eqb_spec c c_semi) as [->|Hn].
      * destruct (skip_true_cases s) as [[H1 H2]|(body & nl & l & -> & H1 & H2 & H3)].
        -- exists [], (c_semi :: s). repeat split; [constructor|]. right. split; [assumption|]. right. exists s. auto.
        -- rewrite app_length in Hl. cbn in Hl. destruct (IH l) as (lay & rest & -> & H4 & H5); [lia|].
           exists (lit ";" ++ body ++ nl :: lay), rest. split; [cbn; rewrite <- app_assoc; reflexivity|].
           split; [constructor; assumption|]. rewrite H3. exact H5.
      * exists [], (c :: s). repeat split; [constructor|left; reflexivity].
Qed.

Lemma skip_clean s : forall b, skip false (skip b s) = skip b s.
Proof.
  induction s as [|c s IH]; intro b; [reflexivity|]. cbn [skip]. destruct b; [apply IH|].
  destruct (is_whitespace c) eqn:E1; [apply IH|]. destruct (N.eqb c c_semi) eqn:E2; [apply IH|].
  cbn [skip]. rewrite E1, E2. reflexivity.
Qed.

Lemma skip_layout lay rest : layout lay -> skip false (lay ++ rest) = skip false rest.
Proof.
  induction 1 as [|c l Hc _ IH|body nl l Hb Hn _ IH]; [reflexivity| |].
  - cbn [app skip]. rewrite Hc. exact IH.
  - replace ((lit ";" ++ body ++ nl :: l) ++ rest) with (c_semi :: body ++ nl :: l ++ rest)
      by (cbn; rewrite <- app_assoc; reflexivity).
    cbn [skip]. change (is_whitespace c_semi) with false. change (N.eqb c_semi c_semi) with true. cbn iota.
    rewrite skip_line by assumption. exact IH.
Qed.

Lemma skip_last s : last_comment s -> skip false s = [].
Proof.
  intros [->|(body & -> & H)]; [reflexivity|]. change (skip true body = []).
  rewrite <- (app_nil_r body), skip_body by assumption. reflexivity.
Qed.

Lemma token_text_inv al N tok text : token_text al N tok text ->
  match tok with
  | TokName n => match N with
                 | Bnf => text = c_lt :: n ++ [c_gt] /\ ~ In c_gt n
                 | Abnf => text = n /\ exists c n', n = c :: n' /\ al c = true /\ forall x, In x n -> ~ ends_name x
                 end
  | TokString q x => text = q :: x ++ [q] /\ In q (lit "'""") /\ ~ In q x
  | TokDefine b => text = f_separator (format_of N) ++ (if b then [f_alternative (format_of N)] else [])
  | TokAlt => text = [f_alternative (format_of N)]
  | TokOpen => text = [c_open]
  | TokClose => text = [c_close]
  | TokOpenOpt => text = [c_lbrack]
  | TokCloseOpt => text = [c_rbrack]
  end.
Proof. intros []; cbn; auto. split; [reflexivity|]. eauto. Qed.

Section Alpha.
Variable alphabetic : char -> bool.
Hypothesis Halpha : alphabetic_ok alphabetic.
Variable Nt : notation.
Notation F := (format_of Nt).
Notation spells := (spells alphabetic Nt).
Notation ws := whitespace_plus_comments.

Lemma not_alphabetic c : N.ltb c 65 = true \/ (N.ltb 90 c = true /\ N.ltb c 97 = true) \/ (N.ltb 122 c = true /\ N.ltb c 128 = true) -> alphabetic c = false.
Proof.
  intro H. destruct (alphabetic c) eqn:E; [|reflexivity]. destruct (Halpha c E) as [_ Ha].
  rewrite !N.ltb_lt in H. lia.
Qed.

Lemma token_first tok text : token_text alphabetic Nt tok text ->
  exists c r, text = c :: r /\ is_whitespace c = false /\ N.eqb c c_semi = false.
Proof.
  intro H. inversion H; subst; cbn;
    try (eexists _, _; split; [reflexivity|]; split; reflexivity).
  - eexists _, _. split; [reflexivity|]. destruct (Halpha c H0) as [H2 H3]. split; [assumption|].
    apply N.eqb_neq. intros ->. unfold c_semi in H3. lia.
  - eexists _, _. split; [reflexivity|]. destruct H0 as [<-|[<-|[]]]; split; reflexivity.
Qed.

Lemma skip_token tok text rest : token_text alphabetic Nt tok text -> skip false (text ++ rest) = text ++ rest.
Proof.
  intro H. apply token_first in H. destruct H as (c & r & -> & H1 & H2). cbn [app skip]. rewrite H1, H2. reflexivity.
Qed.

Lemma spells_nil_text toks : spells toks [] -> toks = [].
Proof.
  intro H. inversion H as [|tok text lay rest toks' Ht _ _ _ _ E1 E2]; [reflexivity|].
  apply token_first in Ht. destruct Ht as (c & r & -> & _). discriminate.
Qed.

Lemma spells_skip toks rest lay : layout lay -> spells toks rest -> spells toks (skip false (lay ++ rest)).
Proof.
  intros Hl H. rewrite skip_layout by assumption. inversion H as [s Hc E1 E2|tok text l r toks' Ht H1 H2 H3 H4 E1 E2].
  - rewrite skip_last by assumption. constructor. left; reflexivity.
  - subst. rewrite (skip_token tok) by assumption. econstructor; eassumption.
Qed.

Lemma spells_unskip toks s : spells toks (ws s) -> exists lay rest, s = lay ++ rest /\ layout lay /\ spells toks rest.
Proof.
  intro H. destruct (skip_split (length s) s (le_n _)) as (lay & rest & -> & Hl & Hs).
  exists lay, rest. split; [reflexivity|]. split; [assumption|]. unfold ws in H.
  destruct Hs as [E|[E Hc]]; rewrite E in H; [assumption|].
  rewrite (spells_nil_text _ H). constructor. assumption.
Qed.

(** What follows an ABNF name. *)
Definition name_end (s : str) : Prop := s = [] \/ exists c r, s = c :: r /\ ends_name c.

Lemma spells_inv tok toks s : spells (tok :: toks) s -> exists text s1,
  s = text ++ s1 /\ token_text alphabetic Nt tok text /\ spells toks (ws s1) /\
  (tok = TokOpen \/ tok = TokOpenOpt -> spells toks s1) /\
  (forall n, Nt = Abnf -> tok = TokName n -> name_end s1).
Proof.
  intro H. inversion H as [|tok' text lay rest toks' Ht Hl Ho Hn Hs E1 E2]; subst.
  exists text, (lay ++ rest). split; [reflexivity|]. split; [assumption|].
  split; [apply spells_skip; assumption|]. split; [|exact Hn].
  intro E. rewrite (Ho E). exact Hs.
Qed.

Lemma spells_intro tok toks text s1 : token_text alphabetic Nt tok text -> spells toks (ws s1) ->
  tok <> TokOpen -> tok <> TokOpenOpt ->
  (forall n, Nt = Abnf -> tok = TokName n -> name_end s1) ->
  spells (tok :: toks) (text ++ s1).
Proof.
  intros Ht Hs H1 H2 Hn. apply spells_unskip in Hs. destruct Hs as (lay & rest & -> & Hl & Hs).
  apply spells_token; auto. intros [E|E]; contradiction.
Qed.
Lemma spells_intro_open tok toks text s1 : token_text alphabetic Nt tok text -> spells toks s1 ->
  tok = TokOpen \/ tok = TokOpenOpt -> spells (tok :: toks) (text ++ s1).
Proof.
  intros Ht Hs Ho. change (text ++ s1) with (text ++ [] ++ s1). apply spells_token; auto; [constructor|].
  intros n _ E. destruct Ho as [->| ->]; discriminate.
Qed.

(** ** Reading single tokens *)

Definition ends_nameb (c : char) : bool := (is_whitespace c || N.eqb c c_close || N.eqb c c_rbrack)%bool.
Lemma ends_nameb_spec c : ends_nameb c = true <-> ends_name c.
Proof.
  unfold ends_nameb, ends_name. rewrite !orb_true_iff, !N.eqb_eq. cbn. unfold c_close, c_rbrack.
  split; [intros [[H|H]|H]|intros [H|[H|[H|[]]]]]; auto.
Qed.

Lemma take_till_inv f s a b : take_till f s = (a, b) -> s = a ++ b /\ (forall c, In c a -> f c = false) /\
  (b = [] \/ exists c r, b = c :: r /\ f c = true).
Proof.
  revert a b; induction s as [|c s IH]; cbn; intros a b H; [injection H as <- <-; split; [reflexivity|]; split; [intros ? []|left; reflexivity]|].
  destruct (f c) eqn:E.
  - injection H as <- <-. split; [reflexivity|]. split; [intros ? []|]. right. eauto.
  - destruct (take_till f s) as [a' b']. injection H as <- <-. destruct (IH _ _ eq_refl) as (-> & H1 & H2).
    repeat split; auto. intros x [<-|Hx]; auto.
Qed.
Lemma take_till_make f a b : (forall c, In c a -> f c = false) -> (b = [] \/ exists c r, b = c :: r /\ f c = true) ->
  take_till f (a ++ b) = (a, b).
Proof.
  intros Ha Hb. induction a as [|c a IH]; cbn.
  - destruct Hb as [->|(c & r & -> & E)]; [reflexivity|]. cbn. rewrite E. reflexivity.
  - rewrite (Ha c (or_introl eq_refl)), IH; [reflexivity|]. intros x Hx. apply Ha. right; assumption.
Qed.
Lemma take_until_make q a r : ~ In q a -> take_until q (a ++ q :: r) = Some (a, q :: r).
Proof.
  induction a as [|c a IH]; intro H; cbn; [rewrite N.eqb_refl; reflexivity|].
  destruct (N.eqb_spec c q) as [->|_]; [destruct H; left; reflexivity|].
  rewrite IH; [reflexivity|]. intro Hi; apply H; right; assumption.
Qed.
Lemma p_char_make c r : p_char c (c :: r) = Some r.
Proof. cbn. rewrite N.eqb_refl. reflexivity. Qed.

Lemma quoted_make q a r : ~ In q a -> quoted q (q :: a ++ q :: r) = Some (a, r).
Proof.
  intro H. unfold quoted. rewrite p_char_make. cbn [obind]. rewrite take_until_make by assumption.
  cbn [obind]. rewrite p_char_make. reflexivity.
Qed.

Lemma terminal_make q x s1 : In q (lit "'""") -> ~ In q x ->
  terminal ((q :: x ++ [q]) ++ s1) = Some (Terminal x, ws s1).
Proof.
  intros Hq Hx. replace ((q :: x ++ [q]) ++ s1) with (q :: x ++ q :: s1) by (cbn; rewrite <- app_assoc; reflexivity).
  unfold terminal, quoted_string. destruct Hq as [<-|[<-|[]]]; fold squote dquote in *.
  - destruct (quoted dquote _) as [[a r]|] eqn:E.
    + apply quoted_spec in E. destruct E as [E _]. discriminate.
    + rewrite quoted_make by assumption. reflexivity.
  - rewrite quoted_make by assumption. reflexivity.
Qed.
Lemma terminal_inv s t r : terminal s = Some (t, r) -> exists q x s1, t = Terminal x /\ In q (lit "'""") /\ ~ In q x /\
  s = (q :: x ++ [q]) ++ s1 /\ r = ws s1.
Proof.
  unfold terminal. destruct (quoted_string s) as [[a s1]|] eqn:E; [|discriminate]. cbn [obind].
  intro H; injection H as <- <-. apply quoted_string_spec in E. destruct E as (q & Hq & -> & Hn).
  exists q, a, s1. split; [reflexivity|]. split; [destruct Hq as [->| ->]; [right; left|left]; reflexivity|].
  split; [assumption|]. split; [cbn; rewrite <- app_assoc; reflexivity|reflexivity].
Qed.
Lemma terminal_other c s : c <> dquote -> c <> squote -> terminal (c :: s) = None.
Proof.
  intros H1 H2. unfold terminal, quoted_string, quoted. cbn [p_char].
  apply N.eqb_neq in H1. apply N.eqb_neq in H2. rewrite H1, H2. reflexivity.
Qed.

Lemma name_make n text s1 : token_text alphabetic Nt (TokName n) text ->
  (Nt = Abnf -> name_end s1) -> name alphabetic F (text ++ s1) = Some (n, s1).
Proof.
  intros H. apply token_text_inv in H. revert H. case Nt; cbn [format_of].
  - intros [-> Hn] _. unfold name. cbn [f_delimiter BNF]. cbn [app]. rewrite p_char_make. cbn [obind].
    rewrite <- app_assoc. cbn [app]. rewrite take_till_make, p_char_make; [reflexivity| |].
    + intros c Hc. apply N.eqb_neq. intros ->. contradiction.
    + right. exists c_gt, s1. split; [reflexivity|apply N.eqb_refl].
  - intros [-> (c & n' & -> & Ha & Hn)] He. unfold name. cbn [f_delimiter ABNF app]. rewrite Ha. f_equal.
    apply (take_till_make ends_nameb (c :: n') s1).
    + intros x Hx. destruct (ends_nameb x) eqn:E; [|reflexivity]. apply ends_nameb_spec in E. destruct (Hn x Hx E).
    + destruct (He eq_refl) as [->|(x & r & -> & Hx)]; [left; reflexivity|]. right. exists x, r. split; [reflexivity|].
      apply ends_nameb_spec. assumption.
Qed.

Lemma name_inv s n s1 : name alphabetic F s = Some (n, s1) ->
  exists text, s = text ++ s1 /\ token_text alphabetic Nt (TokName n) text /\ (Nt = Abnf -> name_end s1).
Proof.
  case Nt; cbn [format_of].
  - unfold name. cbn [f_delimiter BNF]. destruct (p_char c_lt s) as [s2|] eqn:E1; [|discriminate]. cbn [obind].
    apply p_char_suffix in E1. destruct (take_till _ s2) as [a b] eqn:E2. apply take_till_inv in E2. destruct E2 as (-> & H1 & _).
    destruct (p_char c_gt b) as [r|] eqn:E3; [|discriminate]. cbn [obind]. apply p_char_suffix in E3.
    intro H; injection H as -> ->. subst. exists (c_lt :: n ++ [c_gt]). split; [cbn; rewrite <- app_assoc; reflexivity|].
    split; [|discriminate]. apply text_name_bnf. intro Hi. apply H1 in Hi. discriminate.
  - unfold name. cbn [f_delimiter ABNF]. destruct s as [|c s]; [discriminate|]. destruct (alphabetic c) eqn:Ea; [|discriminate].
    intro H. assert (H' : take_till ends_nameb (c :: s) = (n, s1)) by (injection H as H; exact H). clear H; rename H' into H.
    apply take_till_inv in H. destruct H as (E & H1 & H2).
    assert (Hc : ends_nameb c = false).
    { destruct (Halpha c Ea) as [Hw Hl]. unfold ends_nameb. rewrite Hw. cbn [orb]. apply orb_false_iff. split; apply N.eqb_neq; intros ->; unfold c_close, c_rbrack in *; lia. }
    assert (En : exists n', n = c :: n').
    { destruct n as [|x n']; cbn in E; [|injection E as -> _; eauto]. destruct H2 as [->|(x & r & -> & Hx)]; [discriminate|].
      injection E as -> _. congruence. }
    destruct En as [n' ->]. exists (c :: n'). split; [assumption|]. split.
    + constructor; [assumption|]. intros x Hx He. apply ends_nameb_spec in He. rewrite (H1 x Hx) in He. discriminate.
    + intros _. destruct H2 as [->|(x & r & -> & Hx)]; [left; reflexivity|]. right. exists x, r. split; [reflexivity|].
      apply ends_nameb_spec. assumption.
Qed.

Lemma nonterminal_inv s t r : nonterminal alphabetic F s = Some (t, r) -> exists n text s1, t = Nonterminal n /\
  s = text ++ s1 /\ token_text alphabetic Nt (TokName n) text /\ (Nt = Abnf -> name_end s1) /\ r = ws s1.
Proof.
  unfold nonterminal. destruct (name alphabetic F s) as [[n s1]|] eqn:E; [|discriminate]. cbn [obind].
  intro H; injection H as <- <-. apply name_inv in E. destruct E as (text & -> & H1 & H2). eauto 10.
Qed.

(** A token at the beginning of the text. *)
Definition is_name (tok : token) : bool := match tok with TokName _ => true | _ => false end.
Definition is_string (tok : token) : bool := match tok with TokString _ _ => true | _ => false end.
Definition is_define (tok : token) : bool := match tok with TokDefine _ => true | _ => false end.

Lemma terminal_none tok text s1 : token_text alphabetic Nt tok text -> is_string tok = false -> terminal (text ++ s1) = None.
Proof.
  intros H Hs. destruct (terminal (text ++ s1)) as [[t r]|] eqn:E; [|reflexivity]. exfalso.
  apply terminal_inv in E. destruct E as (q & x & s2 & _ & Hq & _ & E & _). cbn in E.
  apply token_text_inv in H. revert H. case Nt; destruct tok as [n|q' x'|[]| | | | |]; cbn in *; try discriminate; intro H;
    try (subst text; cbn in E; injection E as E1 _; destruct Hq as [<-|[<-|[]]]; discriminate).
  - destruct H as [-> _]. injection E as E1 _; destruct Hq as [<-|[<-|[]]]; discriminate.
  - destruct H as [-> (c & n' & -> & Ha & _)]. injection E as -> _. destruct (Halpha q Ha) as [_ Hl].
    destruct Hq as [<-|[<-|[]]]; cbn in Hl; lia.
Qed.

Lemma name_none tok text s1 : token_text alphabetic Nt tok text -> is_name tok = false -> name alphabetic F (text ++ s1) = None.
Proof.
  intros H Hs. apply token_text_inv in H. revert H. case Nt; destruct tok as [n|q' x'|[]| | | | |]; cbn in *; try discriminate; intro H;
    try (subst text; reflexivity); try (subst text; cbn; rewrite not_alphabetic by (cbn; tauto); reflexivity).
  - destruct H as [-> [[<-|[<-|[]]] _]]; reflexivity.
  - destruct H as [-> [[<-|[<-|[]]] _]]; cbn; rewrite not_alphabetic by (cbn; tauto); reflexivity.
Qed.

Lemma char_none c tok text s1 : token_text alphabetic Nt tok text -> In c [c_open; c_close; c_lbrack; c_rbrack] ->
  tok <> TokOpen \/ c <> c_open -> tok <> TokClose \/ c <> c_close ->
  tok <> TokOpenOpt \/ c <> c_lbrack -> tok <> TokCloseOpt \/ c <> c_rbrack -> p_char c (text ++ s1) = None.
Proof.
  intros H Hc H1 H2 H3 H4. apply token_text_inv in H.
  assert (Hx : forall x r, text = x :: r -> x <> c -> p_char c (text ++ s1) = None).
  { intros x r -> Hx. cbn. apply N.eqb_neq in Hx. rewrite Hx. reflexivity. }
  revert H. case Nt; destruct tok as [n|q' x'|[]| | | | |]; cbn in *; intro H;
    try (eapply Hx; [exact H|]; intros <-; repeat (destruct Hc as [Hc|Hc]; try discriminate Hc); try contradiction Hc; intuition congruence).
  - destruct H as [H _]. eapply Hx; [exact H|]. intros <-. repeat (destruct Hc as [Hc|Hc]; try discriminate Hc). contradiction Hc.
  - destruct H as [H [[<-|[<-|[]]] _]]; (eapply Hx; [exact H|]; intros <-; repeat (destruct Hc as [Hc|Hc]; try discriminate Hc); contradiction Hc).
  - destruct H as [H (x & n' & -> & Ha & _)]. eapply Hx; [exact H|]. intros <-. destruct (Halpha _ Ha) as [_ Hl].
    repeat (destruct Hc as [<-|Hc]; [unfold c_open, c_close, c_lbrack, c_rbrack in Hl; lia|]). contradiction Hc.
  - destruct H as [H [[<-|[<-|[]]] _]]; (eapply Hx; [exact H|]; intros <-; repeat (destruct Hc as [Hc|Hc]; try discriminate Hc); contradiction Hc).
Qed.

Lemma separator_none tok text s1 : token_text alphabetic Nt tok text -> is_define tok = false ->
  p_tag (f_separator F) (text ++ s1) = None.
Proof.
  intros H Hs. apply token_text_inv in H. revert H. case Nt; destruct tok as [n|q' x'|[]| | | | |]; cbn in *; try discriminate; intro H;
    try (subst text; reflexivity).
  - destruct H as [-> _]. reflexivity.
  - destruct H as [-> [[<-|[<-|[]]] _]]; reflexivity.
  - destruct H as [-> (c & n' & -> & Ha & _)]. destruct (Halpha _ Ha) as [_ Hl].
    assert (E : N.eqb 61 c = false) by (apply N.eqb_neq; lia). 
    transitivity (if N.eqb 61 c then Some (n' ++ s1) else None); [reflexivity|]. rewrite E. reflexivity.
  - destruct H as [-> [[<-|[<-|[]]] _]]; reflexivity.
Qed.

Lemma alternative_none tok text s1 : token_text alphabetic Nt tok text -> tok <> TokAlt ->
  p_char (f_alternative F) (text ++ s1) = None.
Proof.
  intros H Hs. apply token_text_inv in H. revert H. case Nt; destruct tok as [n|q' x'|[]| | | | |]; cbn in *; try contradiction; intro H;
    try (subst text; reflexivity).
  - destruct H as [-> _]. reflexivity.
  - destruct H as [-> [[<-|[<-|[]]] _]]; reflexivity.
  - destruct H as [-> (c & n' & -> & Ha & _)]. destruct (Halpha _ Ha) as [_ Hl].
    assert (E : N.eqb c c_slash = false) by (apply N.eqb_neq; unfold c_slash; lia). 
    transitivity (if N.eqb c c_slash then Some (n' ++ s1) else None); [reflexivity|]. rewrite E. reflexivity.
  - destruct H as [-> [[<-|[<-|[]]] _]]; reflexivity.
Qed.
End Alpha.
