(** Claims made in the README and in the comments of the crate: undefined nonterminals, the end of
    a production, several productions for one nonterminal, infinite loops. *)
From Verif Require Import EarleyOrder StrategyProofs TextMain ParseExamples TextExamples.
From Coq Require Import Permutation Lia.
From Coq Require String.
Import String.StringSyntax.

(** ** Undefined nonterminals *)

Lemma find_production_undefined g n : ~ has_lhs g n -> forall ix, find_production g n ix = None.
Proof.
  intros Hn. induction g as [|p g IH]; intro ix; cbn; [reflexivity|].
  destruct (term_eqb (p_lhs p) (Nonterminal n)) eqn:E.
  - destruct Hn. exists p. split; [left; reflexivity|]. apply term_eqb_eq. assumption.
  - apply IH. intros (q & Hq & Hl). apply Hn. exists q. split; [right; assumption|assumption].
Qed.

Lemma undefined_bare {S} (choose : S -> nat -> production -> nat -> res (option expression * S)) accept g fuel n st depth :
  ~ has_lhs g n -> traverse choose accept g (Datatypes.S fuel) n st depth = Ok (ROk n, st).
Proof. intro H. cbn [traverse]. rewrite find_production_undefined by assumption. reflexivity. Qed.

Definition undef_grammar : grammar := [mkProd (N_ "s") [[T_ "x"]; [N_ "undef"]]].

Lemma undef_generates {S} (choose : S -> nat -> production -> nat -> res (option expression * S)) accept fuel st w st' :
  lawful choose -> generate choose accept undef_grammar fuel st = Ok (ROk w, st') -> w = lit "x" \/ w = lit "undef".
Proof.
  intros Hl H. destruct (generate_sound choose accept undef_grammar Hl (fun _ _ => True) (fun _ _ _ _ _ => I) _ _ _ _ H)
    as (n & p & rest & E & Hn & Hex).
  injection E as <- <-. injection Hn as <-.
  inversion Hex as [|? Hno|? q e ? Hf He Hes _]; subst.
  - destruct Hno. exists (mkProd (N_ "s") [[T_ "x"]; [N_ "undef"]]). split; [left|]; reflexivity.
  - apply first_for_In in Hf. destruct Hf as [[<-|[]] _]. destruct He as [<-|[<-|[]]].
    + left. inversion Hes as [|? ? ? ? Ht Hr]; subst. inversion Ht; subst. inversion Hr; subst. reflexivity.
    + right. inversion Hes as [|? ? ? ? Ht Hr]; subst. inversion Hr; subst.
      inversion Ht as [|? Hno|? q e ? Hf]; subst; [reflexivity|].
      apply first_for_In in Hf. destruct Hf as [[<-|[]] E]. discriminate.
Qed.

(** ** Concatenating grammar texts *)

Lemma newline_white nl : newline nl -> is_whitespace nl = true.
Proof. intros [->| ->]; reflexivity. Qed.

Lemma layout_app a b : layout a -> layout b -> layout (a ++ b).
Proof.
  intros Ha Hb. induction Ha as [|c l Hc Hl IH|body nl l Hb' Hn Hl IH]; [exact Hb|apply layout_space; assumption|].
  rewrite <- !app_assoc. cbn [app]. apply (layout_comment body nl (l ++ b)); assumption.
Qed.

Lemma last_comment_line s nl : last_comment s -> newline nl -> layout (s ++ [nl]).
Proof.
  intros [->|(body & -> & Hb)] Hn.
  - apply layout_space; [apply newline_white; assumption|constructor].
  - rewrite <- app_assoc. apply (layout_comment body nl []); [assumption|assumption|constructor].
Qed.

(** The last token is not an opening bracket. *)
Definition ends_closed (ts : list token) : Prop :=
  exists pre tok, ts = pre ++ [tok] /\ tok <> TokOpen /\ tok <> TokOpenOpt.

Lemma ends_closed_app a b : ends_closed b -> ends_closed (a ++ b).
Proof. intros (pre & tok & -> & H). exists (a ++ pre), tok. rewrite app_assoc. auto. Qed.

Lemma toks_end_closed :
  (forall t ts, term_toks t ts -> ends_closed ts) /\
  (forall e ts, terms_toks e ts -> e <> [] -> ends_closed ts) /\
  (forall es ts, alts_toks es ts -> ends_closed ts).
Proof.
  apply toks_mutind.
  - intros q s. exists [], (TokString q s). repeat split; discriminate.
  - intros n. exists [], (TokName n). repeat split; discriminate.
  - intros es ts _ _. exists (TokOpen :: ts), TokClose. repeat split; discriminate.
  - intros es ts _ _. exists (TokOpenOpt :: ts), TokCloseOpt. repeat split; discriminate.
  - contradiction.
  - intros t e ts ts' _ Ht He IH _. destruct e as [|t' e].
    + inversion He; subst. rewrite app_nil_r. assumption.
    + apply ends_closed_app, IH. discriminate.
  - intros e ts Hne _ IH. apply IH. assumption.
  - intros e es ts ts' _ _ _ _ IH. apply ends_closed_app. apply (ends_closed_app [TokAlt]). assumption.
Qed.

Lemma productions_end_closed pg ts : productions_toks pg ts -> pg <> [] -> ends_closed ts.
Proof.
  induction 1 as [|p ps ts ts' (inc & ts'' & Ha & ->) Hps IH]; [contradiction|]. intros _.
  destruct ps as [|p' ps].
  - inversion Hps; subst. rewrite app_nil_r. apply (ends_closed_app [TokName (pp_lhs p); TokDefine inc]).
    apply (proj2 (proj2 toks_end_closed)) in Ha. assumption.
  - apply ends_closed_app, IH. discriminate.
Qed.

Lemma productions_toks_app a b ts ts' : productions_toks a ts -> productions_toks b ts' -> productions_toks (a ++ b) (ts ++ ts').
Proof.
  induction 1 as [|p ps t t' Hp Hps IH]; intro Hb; [assumption|].
  cbn [app]. rewrite <- app_assoc. constructor; [assumption|apply IH; assumption].
Qed.

Lemma spells_app al Nt ts s : spells al Nt ts s -> ends_closed ts -> forall ts2 nl lay s2,
  newline nl -> layout lay -> spells al Nt ts2 s2 -> spells al Nt (ts ++ ts2) (s ++ nl :: lay ++ s2).
Proof.
  induction 1 as [s Hs|tok text lay0 rest toks Ht Hl Ho Hn Hs IH]; intros (pre & last & E & H1 & H2) ts2 nl lay s2 Hnl Hlay Hs2.
  { destruct pre; discriminate. }
  cbn [app]. destruct pre as [|tok' pre].
  - injection E as -> ->. inversion Hs as [s' Hc E1 E2|]; subst.
    replace ((text ++ lay0 ++ rest) ++ nl :: lay ++ s2) with (text ++ (lay0 ++ (rest ++ [nl]) ++ lay) ++ s2)
      by (rewrite <- !app_assoc; reflexivity).
    apply spells_token; [assumption| | | |assumption].
    + apply layout_app; [assumption|]. apply layout_app; [apply last_comment_line; assumption|assumption].
    + intros [E|E]; contradiction.
    + intros n EN Et. right. destruct (Hn n EN Et) as [E|(c & r & E & Hc')].
      * apply app_eq_nil in E. destruct E as [-> ->]. exists nl, (lay ++ s2). split; [reflexivity|].
        left. apply newline_white. assumption.
      * exists c, (r ++ nl :: lay ++ s2). split; [|assumption].
        transitivity ((lay0 ++ rest) ++ nl :: lay ++ s2); [rewrite <- !app_assoc; reflexivity|]. rewrite E. reflexivity.
  - injection E as -> ->.
    replace ((text ++ lay0 ++ rest) ++ nl :: lay ++ s2) with (text ++ lay0 ++ (rest ++ nl :: lay ++ s2))
      by (rewrite <- !app_assoc; reflexivity).
    apply spells_token; [assumption|assumption|assumption| |].
    + intros n EN Et. right. destruct (Hn n EN Et) as [E|(c & r & E & Hc')].
      * apply app_eq_nil in E. destruct E as [-> ->]. exists nl, (lay ++ s2). split; [reflexivity|].
        left. apply newline_white. assumption.
      * exists c, (r ++ nl :: lay ++ s2). split; [|assumption].
        transitivity ((lay0 ++ rest) ++ nl :: lay ++ s2); [rewrite <- !app_assoc; reflexivity|]. rewrite E. reflexivity.
    + apply IH; auto. exists pre, last. auto.
Qed.

Lemma texts_append al Nt pg1 pg2 s1 s2 nl : newline nl ->
  grammar_text al Nt pg1 s1 -> grammar_text al Nt pg2 s2 -> grammar_text al Nt (pg1 ++ pg2) (s1 ++ nl :: s2).
Proof.
  intros Hnl (l1 & r1 & t1 & -> & Hl1 & Hne1 & Hp1 & Hs1) (l2 & r2 & t2 & -> & Hl2 & Hne2 & Hp2 & Hs2).
  exists l1, (r1 ++ nl :: l2 ++ r2), (t1 ++ t2). split; [rewrite <- app_assoc; reflexivity|].
  split; [assumption|]. split; [destruct pg1; [contradiction|discriminate]|]. split; [apply productions_toks_app; assumption|].
  apply spells_app; auto. eapply productions_end_closed; eassumption.
Qed.

Lemma spells_comment al ts s body : (forall c, In c body -> ~ newline c) -> spells al Bnf ts s ->
  spells al Bnf ts (s ++ lit ";" ++ body).
Proof.
  intro Hb. induction 1 as [s Hs|tok text lay rest toks Ht Hl Ho Hn Hs IH].
  - constructor. right. destruct Hs as [->|(b & -> & Hb')].
    + exists body. auto.
    + exists (b ++ lit ";" ++ body). split; [rewrite <- app_assoc; reflexivity|].
      intros c Hc. apply in_app_or in Hc. destruct Hc as [Hc|[<-|Hc]]; auto. intros [E|E]; discriminate.
  - replace ((text ++ lay ++ rest) ++ lit ";" ++ body) with (text ++ lay ++ (rest ++ lit ";" ++ body))
      by (rewrite <- !app_assoc; reflexivity).
    apply spells_token; auto. intros n E; discriminate.
Qed.

Lemma text_comment al pg s body : (forall c, In c body -> ~ newline c) -> grammar_text al Bnf pg s ->
  grammar_text al Bnf pg (s ++ lit ";" ++ body).
Proof.
  intros Hb (l & r & t & -> & Hl & Hne & Hp & Hs). exists l, (r ++ lit ";" ++ body), t.
  split; [rewrite <- app_assoc; reflexivity|]. split; [assumption|]. split; [assumption|]. split; [assumption|].
  apply spells_comment; assumption.
Qed.

Lemma semicolon_separates al pg1 pg2 s1 s2 body nl : (forall c, In c body -> ~ newline c) -> newline nl ->
  grammar_text al Bnf pg1 s1 -> grammar_text al Bnf pg2 s2 ->
  grammar_text al Bnf (pg1 ++ pg2) (s1 ++ lit ";" ++ body ++ nl :: s2).
Proof.
  intros Hb Hnl H1 H2.
  replace (s1 ++ lit ";" ++ body ++ nl :: s2) with ((s1 ++ lit ";" ++ body) ++ nl :: s2) by (rewrite <- !app_assoc; reflexivity).
  apply texts_append; [assumption| |assumption]. apply text_comment; assumption.
Qed.

(** At the level of [str::parse]. *)
Lemma read_concat al N pg1 pg2 s1 s2 nl : alphabetic_ok al -> newline nl ->
  grammar_text al N pg1 s1 -> grammar_text al N pg2 s2 ->
  exists g, normalize_parsed_grammar (pg1 ++ pg2) = Ok g /\ grammar_from_str al (s1 ++ nl :: s2) = Ok (ROk g).
Proof.
  intros Hal Hnl H1 H2. destruct (normalize_total (pg1 ++ pg2)) as [g Hg]. exists g. split; [assumption|].
  apply (grammar_from_str_exact al Hal). exists N, (pg1 ++ pg2). split; [apply texts_append; assumption|assumption].
Qed.

Lemma semicolon_one_line al : exists s1 s2 g1 g2,
  grammar_from_str al s1 = Ok (ROk g1) /\ grammar_from_str al s2 = Ok (ROk g2) /\
  (exists g, grammar_from_str al (s1 ++ lit ";" ++ 10%N :: s2) = Ok (ROk g) /\ g = g1 ++ g2) /\
  grammar_from_str al (s1 ++ lit "; " ++ s2) = Ok (ROk g1) /\ g2 <> [].
Proof.
  exists (lit "<a> ::= 'x'"), (lit "<b> ::= 'y'"), [mkProd (N_ "a") [[T_ "x"]]], [mkProd (N_ "b") [[T_ "y"]]].
  split; [vm_compute; reflexivity|]. split; [vm_compute; reflexivity|]. split; [eexists; split; vm_compute; reflexivity|].
  split; [vm_compute; reflexivity|discriminate].
Qed.

Lemma abnf_name_text al n : alphabetic_ok al -> al 97%N = true -> al 98%N = true ->
  n = lit "b" \/ n = lit "b;" ->
  grammar_from_str al (lit "a = " ++ n) = Ok (ROk [mkProd (N_ "a") [[Nonterminal n]]]).
Proof.
  intros H Ha Hb' Hn0. apply (grammar_from_str_exact al H). exists Abnf, [mkParsed (lit "a") [[Simple (Nonterminal n)]]].
  split; [|reflexivity].
  exists [], (lit "a = " ++ n), (([TokName (lit "a"); TokDefine false] ++ [TokName n] ++ []) ++ []).
  split; [reflexivity|]. split; [constructor|]. split; [discriminate|]. split.
  { constructor; [|constructor]. exists false. eexists. split; [|reflexivity].
    constructor; [discriminate|]. apply toks_more; [apply toks_nonterminal|constructor]. }
  apply (spells_token al Abnf _ (lit "a") (lit " ") (lit "= " ++ n)).
  { constructor; [assumption|]. intros x Hx [Hw|Hb]; cbn in Hx; destruct Hx as [<-|[]];
      try discriminate; cbn in Hb; decompose [or] Hb; try discriminate; contradiction. }
  { apply layout_space; [reflexivity|constructor]. }
  { intros [E|E]; discriminate. }
  { intros m _ _. right. exists 32%N, (lit "= " ++ n). split; [reflexivity|]. left; reflexivity. }
  apply (spells_token al Abnf _ (lit "=") (lit " ") n).
  { constructor. }
  { apply layout_space; [reflexivity|constructor]. }
  { intros [E|E]; discriminate. }
  { intros m _ E; discriminate. }
  assert (E : spells al Abnf [TokName n] (n ++ [] ++ [])); [|rewrite app_nil_r in E; exact E].
  apply spells_token.
  { destruct Hn0 as [->| ->]; (constructor; [assumption|]); intros x Hx [Hw|Hb]; cbn in Hx; decompose [or] Hx; subst;
      try discriminate; try contradiction; cbn in Hb; decompose [or] Hb; try discriminate; contradiction. }
  { constructor. }
  { auto. }
  { intros m _ E. left. reflexivity. }
  constructor. left; reflexivity.
Qed.

(** ** Several productions for one nonterminal *)

(** The pairs of a left-hand side and one of its alternatives, in order. *)
Definition alternatives (g : grammar) : list (term * expression) :=
  flat_map (fun p => map (fun e => (p_lhs p, e)) (p_rhs p)) g.

Lemma same_alternatives g g' start input it it' t :
  (forall a, In a (alternatives g) <-> In a (alternatives g')) -> opens g start input it -> opens g' start input it' ->
  (exists ts itf, produces it ts itf /\ In t ts) <-> (exists ts itf, produces it' ts itf /\ In t ts).
Proof.
  intros HP Ho Ho'. rewrite (returned_set _ _ _ _ t Ho), (returned_set _ _ _ _ t Ho').
  split; intros (H1 & H2 & H3); (split; [|auto]); (eapply derives_same_alts; [|exact H1]); intros l e Hin; apply HP; exact Hin.
Qed.

Lemma permuted_alternatives g g' start input it it' ts ts' itf itf' :
  Permutation (alternatives g) (alternatives g') ->
  opens g start input it -> produces it ts itf -> exhausted itf ->
  opens g' start input it' -> produces it' ts' itf' -> exhausted itf' ->
  Permutation ts ts'.
Proof.
  intros HP Ho Hp He Ho' Hp' He'.
  destruct (exhausted_length_le _ _ _ _ _ _ _ _ _ _ HP Ho Hp He Ho' Hp' He') as [H1 H2].
  destruct (exhausted_length_le _ _ _ _ _ _ _ _ _ _ (Permutation_sym HP) Ho' Hp' He' Ho Hp He) as [H3 H4].
  apply H4. assumption.
Qed.

Lemma split_alternatives before after l es1 es2 :
  alternatives (before ++ mkProd l (es1 ++ es2) :: after) = alternatives (before ++ mkProd l es1 :: mkProd l es2 :: after).
Proof.
  unfold alternatives. rewrite !flat_map_app. f_equal. cbn [flat_map p_lhs p_rhs]. rewrite map_app, <- app_assoc. reflexivity.
Qed.

Lemma generate_first_only {S} (choose : S -> nat -> production -> nat -> res (option expression * S)) accept fuel st w st' :
  lawful choose -> generate choose accept [mkProd (N_ "s") [[T_ "x"]]; mkProd (N_ "s") [[T_ "y"]]] fuel st = Ok (ROk w, st') ->
  w = lit "x".
Proof.
  intros Hl H.
  destruct (generate_sound choose accept _ Hl (fun _ _ => True) (fun _ _ _ _ _ => I) _ _ _ _ H) as (n & p & rest & E & Hn & Hex).
  injection E as <- <-. injection Hn as <-.
  inversion Hex as [|? Hno|? q e ? Hf He Hes _]; subst.
  - destruct Hno. eexists. split; [left; reflexivity|reflexivity].
  - destruct Hf as (bef & aft & E & Hq & Hb). destruct bef as [|b bef].
    + injection E as <- _. destruct He as [<-|[]]. inversion Hes as [|? ? ? ? Ht Hr]; subst. inversion Ht; subst. inversion Hr; subst. reflexivity.
    + injection E as <- _. destruct (Hb (mkProd (N_ "s") [[T_ "x"]])); [left; reflexivity|reflexivity].
Qed.

(** ** Generation that may never end *)

(** Each expansion of <s> needs three more, or none: with a fair coin the number of open
    nonterminals grows. *)
Definition branching_grammar : grammar := [mkProd (N_ "s") [[N_ "s"; N_ "s"; N_ "s"]; [T_ "a"]]].

(** [m] nonterminals are open; 0 opens three for one, 1 closes one. *)
Fixpoint closes (script : list nat) (m : nat) : bool :=
  match m with
  | 0 => true
  | S m => match script with
           | [] => false
           | 0 :: script => closes script (S (S (S m)))
           | _ :: script => closes script m
           end
  end.

Lemma closes_0 l : closes l 0 = true.
Proof. destruct l; reflexivity. Qed.

Notation run3 := (traverse (random_walk script_rng) (pure_callback (fun _ _ => true)) branching_grammar).

Lemma branching_run fuel : forall script depth x rest, (forall b, In b script -> b < 2) ->
  run3 fuel (lit "s") script depth = Ok (x, rest) ->
  (exists w, x = ROk w) /\ (forall b, In b rest -> b < 2) /\ forall k, closes script (S k) = closes rest k.
Proof.
  induction fuel as [|fuel IH]; intros script depth x rest Hb H; [discriminate|].
  cbn [traverse] in H.
  change (find_production branching_grammar (lit "s") 0) with
    (Some (0, mkProd (N_ "s") [[N_ "s"; N_ "s"; N_ "s"]; [T_ "a"]])) in H.
  cbn [production_has_no_choice p_rhs] in H.
  assert (Hd : exists b script', random_walk script_rng script 0 (mkProd (N_ "s") [[N_ "s"; N_ "s"; N_ "s"]; [T_ "a"]]) depth =
            Ok (nth_error [[N_ "s"; N_ "s"; N_ "s"]; [T_ "a"]] b, script') /\
            ((script = b :: script' /\ b < 2) \/ (script = [] /\ b = 0 /\ script' = []))).
  { unfold random_walk, random_index. cbn [p_rhs length Nat.eqb rbind draw_usize script_rng].
    destruct script as [|b script]; cbn [script_draw].
    - exists 0, []. split; [reflexivity|right; auto].
    - pose proof (Hb b (or_introl eq_refl)) as Hlt. exists b, script. split; [|left; auto].
      destruct (Nat.ltb_spec b 2); [reflexivity|lia]. }
  destruct Hd as (b & script' & Hrw & Hcase). rewrite Hrw in H. clear Hrw. cbn [rbind] in H.
  assert (Hb' : forall b, In b script' -> b < 2).
  { destruct Hcase as [[-> _]|(_ & _ & ->)]; [|intros ? []]. intros c Hc. apply Hb. right; assumption. }
  destruct b as [|b].
  - cbn [nth_error eval_terms N_] in H.
    destruct (run3 fuel (lit "s") script' (depth + 1)) as [[x1 s1]| |] eqn:E1; cbn [rbind] in H; try discriminate.
    destruct (IH _ _ _ _ Hb' E1) as ([w1 ->] & Hb1 & H1).
    destruct (run3 fuel (lit "s") s1 (depth + 1)) as [[x2 s2]| |] eqn:E2; cbn [rbind] in H; try discriminate.
    destruct (IH _ _ _ _ Hb1 E2) as ([w2 ->] & Hb2 & H2).
    destruct (run3 fuel (lit "s") s2 (depth + 1)) as [[x3 s3]| |] eqn:E3; cbn [rbind] in H; try discriminate.
    destruct (IH _ _ _ _ Hb2 E3) as ([w3 ->] & Hb3 & H3).
    cbn [rbind pure_callback] in H. injection H as <- <-.
    split; [eexists; reflexivity|]. split; [assumption|]. intro k. rewrite <- H3, <- H2, <- H1.
    destruct Hcase as [[-> _]|(-> & _ & ->)]; [reflexivity|].
    specialize (H1 0). rewrite closes_0 in H1. discriminate.
  - destruct Hcase as [[-> Hlt]|(_ & E & _)]; [|discriminate].
    assert (b = 0) by lia. subst b. cbn [nth_error eval_terms T_ rbind app pure_callback] in H. injection H as <- <-.
    split; [eexists; reflexivity|]. split; [assumption|]. intro k. reflexivity.
Qed.

(** All scripts of [n] bits, and how many of them close [m] nonterminals. *)
Fixpoint bit_scripts (n : nat) : list (list nat) :=
  match n with
  | 0 => [[]]
  | S n => map (cons 0) (bit_scripts n) ++ map (cons 1) (bit_scripts n)
  end.

Lemma bit_scripts_In n : forall l, In l (bit_scripts n) <-> length l = n /\ forall b, In b l -> b < 2.
Proof.
  induction n as [|n IH]; intro l; cbn [bit_scripts].
  - split.
    + intros [<-|[]]. split; [reflexivity|intros ? []].
    + intros [E _]. destruct l; [left; reflexivity|discriminate].
  - rewrite in_app_iff, !in_map_iff. split.
    + intros [(x & <- & Hx)|(x & <- & Hx)]; apply IH in Hx; destruct Hx as [<- Hx]; (split; [reflexivity|]);
        intros b [<-|Hb]; auto.
    + intros [E Hb]. destruct l as [|b l]; [discriminate|]. injection E as E.
      assert (Hl : In l (bit_scripts n)) by (apply IH; split; [assumption|intros; apply Hb; right; assumption]).
      pose proof (Hb b (or_introl eq_refl)). destruct b as [|[|b]]; [left|right|lia]; exists l; auto.
Qed.

Definition closing (n m : nat) : nat := length (filter (fun l => closes l m) (bit_scripts n)).

Lemma filter_map_length {A B} (f : A -> B) (P : B -> bool) l :
  length (filter P (map f l)) = length (filter (fun x => P (f x)) l).
Proof. induction l as [|x l IH]; [reflexivity|]. cbn. destruct (P (f x)); cbn; rewrite IH; reflexivity. Qed.

Lemma filter_all {A} (P : A -> bool) l : (forall x, In x l -> P x = true) -> filter P l = l.
Proof.
  induction l as [|x l IH]; intro H; [reflexivity|]. cbn. rewrite H by (left; reflexivity). f_equal. apply IH.
  intros; apply H; right; assumption.
Qed.

Lemma bit_scripts_length n : length (bit_scripts n) = 2 ^ n.
Proof. induction n as [|n IH]; [reflexivity|]. cbn [bit_scripts]. rewrite app_length, !map_length, IH. cbn. lia. Qed.

Lemma closing_0 n : closing n 0 = 2 ^ n.
Proof. unfold closing. rewrite filter_all; [apply bit_scripts_length|]. intros; apply closes_0. Qed.

Lemma closing_step n m : closing (S n) (S m) = closing n (S (S (S m))) + closing n m.
Proof. unfold closing. cbn [bit_scripts]. rewrite filter_app, app_length, !filter_map_length. reflexivity. Qed.

Lemma closing_bound n : forall m, closing n m * 8 ^ m <= 5 ^ m * 2 ^ n.
Proof.
  induction n as [|n IH]; intro m.
  - destruct m as [|m]; [rewrite closing_0; reflexivity|]. cbn. lia.
  - destruct m as [|m]; [rewrite closing_0; cbn; lia|]. rewrite closing_step.
    pose proof (IH (S (S (S m)))) as H3. pose proof (IH m) as H0.
    cbn [Nat.pow] in *. nia.
Qed.

Lemma branching_at_most n (L : list (list nat)) : NoDup L ->
  (forall l, In l L -> length l = n /\ (forall b, In b l -> b < 2) /\
     exists fuel r, generate_random script_rng (fun _ _ => true) branching_grammar fuel l = Ok r) ->
  8 * length L <= 5 * 2 ^ n.
Proof.
  intros HN HL.
  assert (H : length L <= closing n 1).
  { apply NoDup_incl_length; [assumption|]. intros l Hl. destruct (HL l Hl) as (Hlen & Hb & fuel & [x rest] & H).
    apply filter_In. split; [apply bit_scripts_In; auto|].
    unfold generate_random, generate in H.
    destruct (terminates fuel branching_grammar) as [b| |] eqn:E; cbn [rbind] in H; try discriminate.
    assert (b = true) as ->.
    { assert (E2 : terminates 5 branching_grammar = Ok true) by reflexivity.
      apply (terminates_mono branching_grammar 5 (fuel + 5)) in E2; [|lia].
      apply (terminates_mono branching_grammar fuel (fuel + 5)) in E; [|lia]. congruence. }
    cbn [negb branching_grammar p_lhs N_] in H.
    apply branching_run in H; [|assumption]. destruct H as (_ & _ & Hk). rewrite (Hk 0). apply closes_0. }
  pose proof (closing_bound n 1) as Hc. cbn [Nat.pow] in Hc. lia.
Qed.

Lemma branching_guard : forall fuel, 2 <= fuel -> terminates fuel branching_grammar = Ok true.
Proof. intros fuel H. apply (terminates_mono branching_grammar 2 fuel); [reflexivity|assumption]. Qed.

(** ** For the statements *)

Lemma undef_no_lhs : ~ has_lhs undef_grammar (lit "undef").
Proof. intros (p & [<-|[]] & E). discriminate. Qed.
Lemma undef_refers : refers undef_grammar (lit "undef").
Proof. exists (mkProd (N_ "s") [[T_ "x"]; [N_ "undef"]]), [N_ "undef"]. split; [left; reflexivity|]. split; [right|]; left; reflexivity. Qed.

Lemma undef_example : ~ has_lhs undef_grammar (lit "undef") /\
  generate_random script_rng (fun _ _ => true) undef_grammar 20 [1] = Ok (ROk (lit "undef"), []).
Proof. split; [exact undef_no_lhs|reflexivity]. Qed.

Lemma undef_brackets : exists g n, refers g n /\ ~ has_lhs g n /\
  (exists script, generate_random script_rng (fun _ _ => true) g 20 script = Ok (ROk n, [])) /\
  forall S (choose : S -> nat -> production -> nat -> res (option expression * S)) accept fuel st w st',
    lawful choose -> generate choose accept g fuel st = Ok (ROk w, st') -> w <> display_term (Nonterminal n).
Proof.
  exists undef_grammar, (lit "undef"). split; [exact undef_refers|]. split; [exact undef_no_lhs|].
  split; [exists [1]; reflexivity|]. intros S choose accept fuel st w st' Hl H.
  apply undef_generates in H; [|assumption]. destruct H as [->| ->]; discriminate.
Qed.

Lemma undef_error : exists g n, refers g n /\ ~ has_lhs g n /\
  forall S (choose : S -> nat -> production -> nat -> res (option expression * S)) accept fuel st,
    generate choose accept g fuel st = Ok (RErr (GenerateError msg_not_terminating), st).
Proof.
  exists [mkProd (N_ "s") [[N_ "undef"]]], (lit "undef"). split; [|split].
  - exists (mkProd (N_ "s") [[N_ "undef"]]), [N_ "undef"]. split; [left; reflexivity|]. split; left; reflexivity.
  - intros (p & [<-|[]] & E). discriminate.
  - reflexivity.
Qed.

Lemma semicolon_line al pg1 pg2 s1 s2 body nl : (forall c, In c body -> ~ newline c) -> newline nl ->
  grammar_text al Bnf pg1 s1 -> grammar_text al Bnf pg2 s2 ->
  grammar_text al Bnf (pg1 ++ pg2) (s1 ++ lit ";" ++ body ++ nl :: s2) /\
  grammar_text al Bnf pg1 (s1 ++ lit ";" ++ body).
Proof. intros. split; [apply semicolon_separates|apply text_comment]; assumption. Qed.

Lemma abnf_semicolon al : alphabetic_ok al -> al 97%N = true -> al 98%N = true ->
  grammar_from_str al (lit "a = b") = Ok (ROk [mkProd (N_ "a") [[N_ "b"]]]) /\
  grammar_from_str al (lit "a = b;") = Ok (ROk [mkProd (N_ "a") [[N_ "b;"]]]).
Proof. intros H Ha Hb. split; apply abnf_name_text; auto. Qed.

Lemma semicolon_example : grammar_text ascii_alpha Bnf bnf_parsed bnf_text /\
  grammar_text ascii_alpha Abnf bnf_parsed abnf_text /\ newline 10%N /\
  grammar_from_str ascii_alpha (lit "<a> ::= 'x' | <b>; end of a" ++ 10%N :: lit "<b> ::= 'y';") =
    Ok (ROk [mkProd (N_ "a") [[T_ "x"]; [N_ "b"]]; mkProd (N_ "b") [[T_ "y"]]]).
Proof.
  split; [exact bnf_text_parsed|]. split; [exact abnf_text_parsed|]. split; [left; reflexivity|]. vm_compute. reflexivity.
Qed.

Lemma generation_ignores : exists g g', (forall a, In a (alternatives g) <-> In a (alternatives g')) /\
  (exists script, generate_random script_rng (fun _ _ => true) g 20 script = Ok (ROk (lit "y"), [])) /\
  forall S (choose : S -> nat -> production -> nat -> res (option expression * S)) accept fuel st w st',
    lawful choose -> generate choose accept g' fuel st = Ok (ROk w, st') -> w = lit "x".
Proof.
  exists [mkProd (N_ "s") [[T_ "x"]; [T_ "y"]]], [mkProd (N_ "s") [[T_ "x"]]; mkProd (N_ "s") [[T_ "y"]]].
  split; [intro a; reflexivity|]. split; [exists [1]; reflexivity|]. intros S choose accept fuel st w st'. apply generate_first_only.
Qed.

Lemma endless_generation : exists g,
  (forall fuel, 2 <= fuel -> terminates fuel g = Ok true) /\
  (exists script, generate_random script_rng (fun _ _ => true) g 20 script = Ok (ROk (lit "aaa"), [])) /\
  forall n (scripts : list (list nat)), NoDup scripts ->
    (forall s, In s scripts -> length s = n /\ (forall b, In b s -> b < 2) /\
       exists fuel r, generate_random script_rng (fun _ _ => true) g fuel s = Ok r) ->
    8 * length scripts <= 5 * 2 ^ n.
Proof.
  exists branching_grammar. split; [exact branching_guard|]. split; [exists [0; 1; 1; 1]; reflexivity|]. exact branching_at_most.
Qed.

Lemma split_example :
  let g := [mkProd (N_ "s") [[N_ "t"]; [N_ "u"]]; mkProd (N_ "t") [[T_ "x"]]; mkProd (N_ "u") [[T_ "x"]]] in
  let g' := [mkProd (N_ "s") [[N_ "u"]]; mkProd (N_ "t") [[T_ "x"]]; mkProd (N_ "u") [[T_ "x"]]; mkProd (N_ "s") [[N_ "t"]]] in
  Permutation (alternatives g) (alternatives g') /\
  exists it it' ts ts' itf itf', opens g (N_ "s") (lit "x") it /\ produces it ts itf /\ exhausted itf /\
    opens g' (N_ "s") (lit "x") it' /\ produces it' ts' itf' /\ exhausted itf' /\
    length ts = 2 /\ ts <> ts'.
Proof.
  intros g g'. split.
  - apply (Permutation_cons_append [_; _; _]).
  - destruct (run_facts g (N_ "s") "x" 5) as (H1 & H2 & H3); [vm_compute; reflexivity..|].
    destruct (run_facts g' (N_ "s") "x" 5) as (H4 & H5 & H6); [vm_compute; reflexivity..|].
    do 6 eexists. split; [exact H1|]. split; [exact H2|]. split; [apply H3; vm_compute; reflexivity|].
    split; [exact H4|]. split; [exact H5|]. split; [apply H6; vm_compute; reflexivity|].
    split; [vm_compute; reflexivity|]. vm_compute. discriminate.
Qed.
