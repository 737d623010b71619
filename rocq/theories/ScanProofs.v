(** The scan for extended syntax. *)
From Verif Require Export ScanSpec TextMain.
From Coq Require Import Lia.
From Coq Require String.
Import String.StringSyntax.

Lemma quote_cases c : quote c <-> c = dquote \/ c = squote.
Proof. unfold quote. cbn. split; [intros [<-|[<-|[]]]; auto|intros [->| ->]; auto]. Qed.

Lemma opening_cases c : opening c <-> c = c_open \/ c = c_lbrack.
Proof. unfold opening. cbn. split; [intros [<-|[<-|[]]]; auto|intros [->| ->]; auto]. Qed.

Lemma scan_char c r : ~ quote c -> ~ opening c -> extended_scan None (c :: r) = extended_scan None r.
Proof.
  intros Hq Ho. rewrite quote_cases in Hq. rewrite opening_cases in Ho. cbn [extended_scan].
  destruct (N.eqb_spec c dquote); [tauto|]. destruct (N.eqb_spec c squote); [tauto|].
  destruct (N.eqb_spec c c_open); [tauto|]. destruct (N.eqb_spec c c_lbrack); [tauto|]. reflexivity.
Qed.

Lemma scan_plain l r : (forall c, In c l -> ~ quote c /\ ~ opening c) -> extended_scan None (l ++ r) = extended_scan None r.
Proof.
  induction l as [|c l IH]; intro H; [reflexivity|]. cbn [app]. rewrite scan_char by (apply H; left; reflexivity).
  apply IH. intros x Hx. apply H. right. exact Hx.
Qed.

Lemma scan_inside q body r : ~ In q body -> extended_scan (Some q) (body ++ q :: r) = extended_scan None r.
Proof.
  induction body as [|c body IH]; intro H; cbn [app extended_scan].
  - rewrite N.eqb_refl. reflexivity.
  - destruct (N.eqb_spec c q) as [->|]; [exfalso; apply H; left; reflexivity|]. apply IH. intro Hx. apply H. right. exact Hx.
Qed.

Lemma scan_quote q r : quote q -> extended_scan None (q :: r) = extended_scan (Some q) r.
Proof. rewrite quote_cases. intros [->| ->]; reflexivity. Qed.

Lemma scan_open c r : opening c -> extended_scan None (c :: r) = true.
Proof. rewrite opening_cases. intros [->| ->]; reflexivity. Qed.

Lemma scan_complete s : bracket_outside_strings s -> extended_scan None s = true.
Proof.
  intros (pre & c & post & -> & Ho & Hs). induction Hs as [|x s Hx Hs IH|q body s Hq Hb Hs IH].
  - cbn [app]. apply scan_open, Ho.
  - cbn [app]. destruct (in_dec N.eq_dec x (lit "([")) as [Hin|Hin]; [apply scan_open, Hin|]. rewrite scan_char by assumption. exact IH.
  - cbn [app]. rewrite scan_quote, <- app_assoc by assumption. cbn [app]. rewrite scan_inside by assumption. exact IH.
Qed.

Lemma scan_inside_sound q s : extended_scan (Some q) s = true -> exists body r, s = body ++ q :: r /\ ~ In q body /\ extended_scan None r = true.
Proof.
  induction s as [|c s IH]; intro H; cbn [extended_scan] in H; [discriminate|].
  destruct (N.eqb_spec c q) as [->|Hne].
  - exists [], s. repeat split; [intros []|exact H].
  - destruct (IH H) as (body & r & -> & Hb & Hr). exists (c :: body), r. repeat split; [|exact Hr].
    intros [Hx|Hx]; [congruence|contradiction].
Qed.

Lemma scan_sound n : forall s, length s <= n -> extended_scan None s = true -> bracket_outside_strings s.
Proof.
  induction n as [|n IH]; intros [|c s] Hl H; try discriminate; [cbn in Hl; lia|]. cbn [length] in Hl.
  destruct (in_dec N.eq_dec c (lit "'""")) as [Hq|Hq].
  - rewrite scan_quote in H by exact Hq. destruct (scan_inside_sound c s H) as (body & r & -> & Hb & Hr).
    destruct (IH r) as (pre & x & post & -> & Ho & Hc); [rewrite app_length in Hl; cbn in Hl; lia|exact Hr|].
    exists (c :: body ++ c :: pre), x, post. split; [cbn; rewrite <- app_assoc; reflexivity|]. split; [exact Ho|]. apply cs_string; assumption.
  - destruct (in_dec N.eq_dec c (lit "([")) as [Ho|Ho].
    + exists [], c, s. repeat split; [exact Ho|apply cs_nil].
    + rewrite scan_char in H by assumption. destruct (IH s ltac:(lia) H) as (pre & x & post & -> & Hx & Hc).
      exists (c :: pre), x, post. repeat split; [exact Hx|]. apply cs_char; assumption.
Qed.

Lemma scan_contains s : extended_scan None s = true -> str_contains c_open s = true \/ str_contains c_lbrack s = true.
Proof.
  intro H. apply (scan_sound (length s)) in H; [|lia]. destruct H as (pre & c & post & -> & Ho & _).
  apply opening_cases in Ho. unfold str_contains. destruct Ho as [->| ->]; [left|right]; apply existsb_exists; eexists;
    (split; [apply in_or_app; right; left; reflexivity|apply N.eqb_refl]).
Qed.

Lemma extended_is_scan s : grammar_has_extended_syntax s = extended_scan None s.
Proof.
  unfold grammar_has_extended_syntax. destruct (extended_scan None s) eqn:E.
  - apply scan_contains in E. destruct E as [-> | ->]; [reflexivity|]. rewrite andb_comm. reflexivity.
  - destruct (_ && _); reflexivity.
Qed.

Lemma extended_syntax_spec s : grammar_has_extended_syntax s = true <-> bracket_outside_strings s.
Proof. rewrite extended_is_scan. split; [apply (scan_sound (length s)); lia|apply scan_complete]. Qed.

(** ** Texts of grammars *)

Lemma whitespace_not_special c : is_whitespace c = true -> ~ quote c /\ ~ opening c.
Proof.
  intro H. rewrite quote_cases, opening_cases. split; intros [->| ->]; vm_compute in H; discriminate.
Qed.

Lemma layout_plain l : layout l -> ~ In 59%N l -> forall c, In c l -> ~ quote c /\ ~ opening c.
Proof.
  induction 1 as [|c l Hc Hl IH|body nl l Hb Hn Hl IH]; intros Hs x Hx.
  - destruct Hx.
  - destruct Hx as [<-|Hx]; [apply whitespace_not_special, Hc|]. apply IH; [|exact Hx]. intro. apply Hs. right. assumption.
  - exfalso. apply Hs. left. reflexivity.
Qed.

Definition opens (t : token) : Prop := t = TokOpen \/ t = TokOpenOpt.

Lemma spells_scan alphabetic N toks s : spells alphabetic N toks s -> ~ In 59%N s ->
  (forall n, In (TokName n) toks -> forall c, In c n -> ~ quote c /\ ~ opening c) ->
  (extended_scan None s = true <-> exists t, In t toks /\ opens t).
Proof.
  induction 1 as [s Hl|tok text lay rest toks Ht Hl Hopen _ Hsp IH]; intros Hs Hn.
  - destruct Hl as [->|(body & -> & _)]; [|exfalso; apply Hs; left; reflexivity].
    split; [discriminate|]. intros (t & [] & _).
  - assert (Hlay : extended_scan None (lay ++ rest) = extended_scan None rest).
    { apply scan_plain, layout_plain; [exact Hl|]. intro Hx. apply Hs. rewrite !in_app_iff. tauto. }
    assert (IH' : extended_scan None rest = true <-> exists t, In t toks /\ opens t).
    { apply IH; [intro Hx; apply Hs; rewrite !in_app_iff; tauto|]. intros n Hin. apply Hn. right. exact Hin. }
    assert (Hgo : extended_scan None (text ++ lay ++ rest) = extended_scan None (lay ++ rest) -> ~ opens tok ->
      (extended_scan None (text ++ lay ++ rest) = true <-> exists t, In t (tok :: toks) /\ opens t)).
    { intros E Hno. rewrite E, Hlay, IH'. split.
      - intros (t & Hin & Ho). exists t. split; [right; exact Hin|exact Ho].
      - intros (t & [<-|Hin] & Ho); [contradiction|]. eauto. }
    assert (Hfixed : (forall c, In c text -> ~ quote c /\ ~ opening c) -> ~ opens tok ->
      (extended_scan None (text ++ lay ++ rest) = true <-> exists t, In t (tok :: toks) /\ opens t)).
    { intros Hc. apply Hgo. apply scan_plain, Hc. }
    clear Hopen IH. pose proof (fun n H => Hn n (or_introl H)) as Hname. clear Hn.
    inversion Ht; subst;
      try (apply Hfixed; [intros c Hc; rewrite quote_cases, opening_cases; cbn in Hc; split; intros [->| ->];
                          repeat (destruct Hc as [Hc|Hc]; [discriminate|]); exact Hc
                         |intros [?|?]; discriminate]).
    + (* a BNF name *)
      apply Hfixed; [|intros [?|?]; discriminate]. intros c Hc. rewrite !in_app_iff in Hc. destruct Hc as [[<-|[]]|[Hc|[<-|[]]]].
      * rewrite quote_cases, opening_cases. split; intros [?|?]; discriminate.
      * apply (Hname n eq_refl c Hc).
      * rewrite quote_cases, opening_cases. split; intros [?|?]; discriminate.
    + (* an ABNF name *)
      apply Hfixed; [|intros [?|?]; discriminate]. intros x Hx. apply (Hname _ eq_refl x Hx).
    + (* a string *)
      apply Hgo; [|intros [?|?]; discriminate]. cbn [app]. rewrite scan_quote by assumption. rewrite <- app_assoc. cbn [app].
      apply scan_inside. assumption.
    + split; [intros _; exists TokOpen; split; [left; reflexivity|left; reflexivity]|]. intros _. apply scan_open. unfold opening. cbn. auto.
    + split; [intros _; exists TokOpenOpt; split; [left; reflexivity|right; reflexivity]|]. intros _. apply scan_open. unfold opening. cbn. auto.
Qed.

Scheme term_toks_mind := Induction for term_toks Sort Prop
  with terms_toks_mind := Induction for terms_toks Sort Prop
  with alts_toks_mind := Induction for alts_toks Sort Prop.
Combined Scheme toks_mutind from term_toks_mind, terms_toks_mind, alts_toks_mind.

Definition group_term (t : parsed_term) : Prop := exists es, t = Group es \/ t = Optional es.

(** The names and the opening brackets among the tokens are those of the terms. *)
Lemma toks_facts :
  (forall t ts, term_toks t ts ->
     (forall n, In (TokName n) ts -> occurs (Simple (Nonterminal n)) t) /\ ((exists k, In k ts /\ opens k) <-> group_term t)) /\
  (forall e ts, terms_toks e ts ->
     (forall n, In (TokName n) ts -> exists t, In t e /\ occurs (Simple (Nonterminal n)) t) /\
     ((exists k, In k ts /\ opens k) <-> exists t, In t e /\ group_term t)) /\
  (forall es ts, alts_toks es ts ->
     (forall n, In (TokName n) ts -> exists e t, In e es /\ In t e /\ occurs (Simple (Nonterminal n)) t) /\
     ((exists k, In k ts /\ opens k) <-> exists e t, In e es /\ In t e /\ group_term t)).
Proof.
  apply toks_mutind.
  - intros q s. split; [intros n [?|[]]; discriminate|]. split; [intros (k & [<-|[]] & [?|?]); discriminate|intros (es & [?|?]); discriminate].
  - intros m. split.
    + intros n [Hn|[]]. injection Hn as ->. apply occurs_here.
    + split; [intros (k & [<-|[]] & [?|?]); discriminate|intros (es & [?|?]); discriminate].
  - intros es ts _ [IH _]. split.
    + intros n Hn. cbn in Hn. rewrite in_app_iff in Hn. destruct Hn as [?|[Hn|[?|[]]]]; try discriminate.
      destruct (IH n Hn) as (e & t & He & Ht & Ho). eapply occurs_group; eassumption.
    + split; intros _; [exists es; auto|]. exists TokOpen. split; [left; reflexivity|left; reflexivity].
  - intros es ts _ [IH _]. split.
    + intros n Hn. cbn in Hn. rewrite in_app_iff in Hn. destruct Hn as [?|[Hn|[?|[]]]]; try discriminate.
      destruct (IH n Hn) as (e & t & He & Ht & Ho). eapply occurs_optional; eassumption.
    + split; intros _; [exists es; auto|]. exists TokOpenOpt. split; [left; reflexivity|right; reflexivity].
  - split; [intros n []|]. split; [intros (k & [] & _)|intros (t & [] & _)].
  - intros t e ts ts' _ [IH1 IH2] _ [IH3 IH4]. split.
    + intros n Hn. apply in_app_iff in Hn. destruct Hn as [Hn|Hn]; [exists t; split; [left; reflexivity|auto]|].
      destruct (IH3 n Hn) as (t' & Hin & Ho). exists t'. split; [right; exact Hin|exact Ho].
    + split.
      * intros (k & Hk & Ho). apply in_app_iff in Hk. destruct Hk as [Hk|Hk].
        -- exists t. split; [left; reflexivity|]. apply IH2. eauto.
        -- destruct (proj1 IH4 (ex_intro _ k (conj Hk Ho))) as (t' & Hin & Hg). exists t'. split; [right; exact Hin|exact Hg].
      * intros (t' & [<-|Hin] & Hg).
        -- destruct (proj2 IH2 Hg) as (k & Hk & Ho). exists k. rewrite in_app_iff. auto.
        -- destruct (proj2 IH4 (ex_intro _ t' (conj Hin Hg))) as (k & Hk & Ho). exists k. rewrite in_app_iff. auto.
  - intros e ts _ _ [IH1 IH2]. split.
    + intros n Hn. destruct (IH1 n Hn) as (t & Ht & Ho). exists e, t. split; [left; reflexivity|auto].
    + rewrite IH2. split; [intros (t & Ht & Hg); exists e, t; split; [left; reflexivity|auto]|].
      intros (e' & t & [<-|[]] & Ht & Hg). eauto.
  - intros e es ts ts' _ _ [IH1 IH2] _ [IH3 IH4]. split.
    + intros n Hn. apply in_app_iff in Hn. destruct Hn as [Hn|[?|Hn]]; [|discriminate|].
      * destruct (IH1 n Hn) as (t & Ht & Ho). exists e, t. split; [left; reflexivity|auto].
      * destruct (IH3 n Hn) as (e' & t & He & Ht). exists e', t. split; [right; exact He|exact Ht].
    + split.
      * intros (k & Hk & Ho). apply in_app_iff in Hk. destruct Hk as [Hk|[<-|Hk]]; [| |].
        -- destruct (proj1 IH2 (ex_intro _ k (conj Hk Ho))) as (t & Ht & Hg). exists e, t. split; [left; reflexivity|auto].
        -- destruct Ho; discriminate.
        -- destruct (proj1 IH4 (ex_intro _ k (conj Hk Ho))) as (e' & t & He & Ht). exists e', t. split; [right; exact He|exact Ht].
      * intros (e' & t & [<-|He] & Ht & Hg).
        -- destruct (proj2 IH2 (ex_intro _ t (conj Ht Hg))) as (k & Hk & Ho). exists k. rewrite in_app_iff. auto.
        -- destruct (proj2 IH4 (ex_intro _ e' (ex_intro _ t (conj He (conj Ht Hg))))) as (k & Hk & Ho). exists k. rewrite in_app_iff. cbn. auto.
Qed.

Lemma productions_toks_facts pg toks : productions_toks pg toks ->
  (forall n, In (TokName n) toks -> In n (map pp_lhs pg) \/ occurs_in (Simple (Nonterminal n)) pg) /\
  ((exists k, In k toks /\ opens k) <-> uses_groups pg).
Proof.
  assert (Htop : forall pg, uses_groups pg <-> exists p e t, In p pg /\ In e (pp_rhs p) /\ In t e /\ group_term t).
  { intro pg0. split.
    - intros (es & [H|H]); destruct H as (p & e & t & Hp & He & Ht & Ho); exists p, e, t; repeat split; try assumption;
        inversion Ho; subst; unfold group_term; eauto.
    - intros (p & e & t & Hp & He & Ht & es & [->| ->]); exists es; [left|right]; exists p, e; eexists; repeat split; eauto using occurs_here. }
  induction 1 as [|p ps ts ts' (inc & ts1 & Ha & ->) _ [IH1 IH2]].
  - split; [intros n []|]. split; [intros (k & [] & _)|]. rewrite Htop. intros (p & e & t & [] & _).
  - destruct (proj2 (proj2 toks_facts) _ _ Ha) as [F1 F2]. split.
    + intros n Hn. cbn in Hn. destruct Hn as [Hn|[?|Hn]]; [injection Hn as <-; left; left; reflexivity|discriminate|].
      apply in_app_iff in Hn. destruct Hn as [Hn|Hn].
      * destruct (F1 n Hn) as (e & t & He & Ht & Ho). right. exists p, e, t. split; [left; reflexivity|auto].
      * destruct (IH1 n Hn) as [Hin|(q & e & t & Hq & He)]; [left; right; exact Hin|]. right. exists q, e, t. split; [right; exact Hq|exact He].
    + rewrite Htop in *. split.
      * intros (k & Hk & Ho). cbn in Hk. destruct Hk as [<-|[<-|Hk]]; [destruct Ho; discriminate|destruct Ho; discriminate|].
        apply in_app_iff in Hk. destruct Hk as [Hk|Hk].
        -- destruct (proj1 F2 (ex_intro _ k (conj Hk Ho))) as (e & t & He & Ht & Hg). exists p, e, t. split; [left; reflexivity|auto].
        -- destruct (proj1 IH2 (ex_intro _ k (conj Hk Ho))) as (q & e & t & Hq & He). exists q, e, t. split; [right; exact Hq|exact He].
      * intros (q & e & t & [<-|Hq] & He & Ht & Hg).
        -- destruct (proj2 F2) as (k & Hk & Ho); [eauto|]. exists k. cbn. rewrite in_app_iff. auto.
        -- destruct (proj2 IH2) as (k & Hk & Ho); [exists q, e, t; auto|]. exists k. cbn. rewrite in_app_iff. auto.
Qed.

Lemma extended_groups alphabetic N pg s : grammar_text alphabetic N pg s -> ~ In 59%N s -> plain_names pg ->
  (grammar_has_extended_syntax s = true <-> uses_groups pg).
Proof.
  intros (lay & rest & toks & -> & Hl & _ & Hp & Hs) Hsemi Hn. destruct (productions_toks_facts pg toks Hp) as [F1 F2].
  rewrite extended_is_scan, scan_plain.
  - rewrite <- F2. eapply spells_scan; [exact Hs|intro Hx; apply Hsemi, in_or_app; right; exact Hx|].
    intros n Hin. apply Hn. apply F1. exact Hin.
  - apply layout_plain; [exact Hl|]. intro Hx. apply Hsemi, in_or_app. left. exact Hx.
Qed.

(** ** The fast path *)

Section Fast.
Variable alphabetic : char -> bool.
Hypothesis Halpha : alphabetic_ok alphabetic.
Variable Nt : notation.
Notation F := (format_of Nt).

Lemma plain_grammar_complete s g pg : Forall2 (fun p p' => plain p = Some p') g pg -> 2 <= length g -> grammar_text alphabetic Nt pg s ->
  all_consuming (plain_grammar alphabetic F (fuel_for s) s) = Ok (Some g).
Proof.
  intros Hpl Hlen (lay & rest & toks & -> & Hl & _ & Hg & Hs). apply all_consuming_some. unfold plain_grammar.
  set (f := fuel_for (lay ++ rest)). change (whitespace_plus_comments (lay ++ rest)) with (skip false (lay ++ rest)).
  rewrite skip_layout by assumption.
  assert (Hi : items plain_toks g toks).
  { clear Hs Hlen f. revert toks Hg. induction Hpl as [|p p' g pg Hp _ IH]; intros toks Hg; inversion Hg; subst; [constructor|].
    constructor; [exists p'; auto|auto]. }
  destruct Hi as [|p1 g ts1 ts' H1 Hi]; [cbn in Hlen; lia|].
  assert (Hc : skip false rest = rest).
  { destruct H1 as (p' & _ & inc & ts'' & _ & ->). cbn [app] in Hs. apply spells_inv in Hs; [|assumption]. destruct Hs as (text & s1 & -> & Ht & _).
    eapply skip_token; eassumption. }
  rewrite Hc.
  assert (Hb : length rest < f) by (unfold f, fuel_for; rewrite app_length; lia).
  assert (Hfo : forall (a : production) ts toks', plain_toks a ts -> production_follows (ts ++ toks')).
  { intros a ts toks' (p' & _ & H). right. eauto. }
  destruct (parse_production_complete alphabetic Halpha Nt f p1 ts1 ts' rest H1) as (r1 & E1 & He1).
  { destruct Hi as [|p2 g' ts2 ts3 H2 Hi']; [cbn in Hlen; lia|]. eapply Hfo; exact H2. }
  { exact Hb. }
  { exact Hs. }
  rewrite E1. cbn [pbind]. pose proof (eats_shorter _ _ _ _ _ He1). destruct He1 as (Hs1 & Hc1 & _).
  assert (Hp : complete alphabetic Nt plain_toks production_follows f (fun s => parse_production alphabetic F f (whitespace_plus_comments s))).
  { apply (ws_production_complete alphabetic Halpha Nt plain_toks); [|apply parse_production_complete; assumption].
    intros a ts (p' & _ & inc & ts'' & _ & ->). eauto. }
  destruct (many1_complete alphabetic Nt plain_toks production_follows (fun toks => toks = []) f _ f Hp) with (a := g) (ts := ts') (toks := @nil token) (s := r1)
    as (r & E & He); auto.
  - intros toks' ->. left; reflexivity.
  - intros toks' s0 -> _ H2 H3. rewrite (spells_clean_nil _ _ s0 H2 H3). unfold parse_production. case Nt; reflexivity.
  - split; [|exact Hi]. intros ->. cbn in Hlen. lia.
  - lia.
  - rewrite app_nil_r. exact Hs1.
  - rewrite E. cbn [pbind]. destruct He as (H2 & H3 & _). rewrite (spells_clean_nil _ _ r H2 H3). reflexivity.
Qed.

Lemma plain_grammar_two s g : all_consuming (plain_grammar alphabetic F (fuel_for s) s) = Ok (Some g) -> 2 <= length g.
Proof.
  rewrite all_consuming_some. unfold plain_grammar, many1. intro H.
  destruct (parse_production _ _ _ _) as [[[p1 s1]|]| |]; try discriminate. cbn [pbind] in H.
  match type of H with context [many1_loop ?f ?p _ _] => set (par := p) in *; change (parse_production alphabetic F f (whitespace_plus_comments s1)) with (par s1) in H end.
  destruct (par s1) as [[[p2 s2]|]| |]; try discriminate. cbn [pbind] in H.
  assert (Hm : forall f acc s l r, many1_loop f par acc s = Ok (Some (l, r)) -> length acc <= length l).
  { clear. induction f as [|f IH]; intros acc s0 l r H; [discriminate|]. cbn [many1_loop] in H.
    destruct (par s0) as [[[a s1]|]| |]; try discriminate.
    - destruct (Nat.eqb _ _); [discriminate|]. apply IH in H. rewrite app_length in H. cbn in H. lia.
    - injection H as -> _. lia. }
  destruct (many1_loop _ _ _ _) as [[[l r]|]| |] eqn:E; try discriminate. injection H as <- _. apply Hm in E. cbn in *. lia.
Qed.

Lemma plain_grammar_exact s g : all_consuming (plain_grammar alphabetic F (fuel_for s) s) = Ok (Some g) <->
  2 <= length g /\ exists pg, Forall2 (fun p p' => plain p = Some p') g pg /\ grammar_text alphabetic Nt pg s.
Proof.
  split.
  - intro H. split; [eapply plain_grammar_two; exact H|]. apply plain_grammar_sound; assumption.
  - intros (H1 & pg & H2 & H3). eapply plain_grammar_complete; eassumption.
Qed.
End Fast.
