(** The language of the fixture grammar, and reading its sentences. *)
From Verif Require Import EarleyMain GenProofs TextMain Fixtures.
From Coq Require Import Lia.
From Coq Require String.
Import String.StringSyntax.

(** ** From derivations to texts *)

(** The strings denoted by a term or a sequence, when nonterminals denote [I]. *)
Fixpoint denotes (I : str -> str -> Prop) (e : expression) (w : str) : Prop :=
  match e with
  | [] => w = []
  | Terminal s :: e => exists v, w = s ++ v /\ denotes I e v
  | Nonterminal n :: e => exists u v, w = u ++ v /\ I n u /\ denotes I e v
  end.

Scheme derives_ind' := Induction for derives Sort Prop
  with kids_ind' := Induction for kids_match Sort Prop.
Combined Scheme derives_mutind from derives_ind', kids_ind'.

(** An interpretation closed under the rules contains every derivation. *)
Lemma closed_sound g (I : str -> str -> Prop) :
  (forall p n e w, In p g -> p_lhs p = Nonterminal n -> In e (p_rhs p) -> denotes I e w -> I n w) ->
  forall t, derives g t -> forall n, root t = Nonterminal n -> I n (yield t).
Proof.
  intro Hc.
  assert (H : (forall t, derives g t -> forall n, root t = Nonterminal n -> I n (yield t)) /\
              (forall e ks, kids_match g e ks -> denotes I e (flat_map yield_node ks))).
  { apply derives_mutind.
    - intros p rhs kids Hp Hr Hk IH n Hn. cbn in Hn |- *. exact (Hc p n rhs _ Hp Hn Hr IH).
    - reflexivity.
    - intros s r ks Hk IH. cbn. exists (flat_map yield_node ks). split; [reflexivity|exact IH].
    - intros n t r ks Hr Hd IHd Hk IH. cbn. exists (yield t), (flat_map yield_node ks).
      split; [reflexivity|]. split; [exact (IHd n Hr)|exact IH]. }
  exact (proj1 H).
Qed.

(** ... and derivations are closed under the rules. *)
Definition made (g : grammar) (n : str) (w : str) : Prop := exists t, parses g (Nonterminal n) w t.
Lemma made_kids g e w : denotes (made g) e w -> exists ks, kids_match g e ks /\ flat_map yield_node ks = w.
Proof.
  revert w. induction e as [|[s|n] e IH]; intros w H; cbn in H.
  - subst. exists []. split; [constructor|reflexivity].
  - destruct H as (v & -> & H). destruct (IH v H) as (ks & Hk & Hy). exists (Leaf s :: ks).
    split; [constructor; exact Hk|]. cbn. rewrite Hy. reflexivity.
  - destruct H as (u & v & -> & (t & Hd & Hr & Hy0) & H). destruct (IH v H) as (ks & Hk & Hy).
    exists (Sub t :: ks). split; [constructor; assumption|]. cbn. rewrite Hy, Hy0. reflexivity.
Qed.
Lemma made_rule g p n e w : In p g -> p_lhs p = Nonterminal n -> In e (p_rhs p) -> denotes (made g) e w -> made g n w.
Proof.
  intros Hp Hn He H. destruct (made_kids g e w H) as (ks & Hk & Hy). exists (Node (p_lhs p) ks).
  split; [econstructor; eassumption|]. split; [exact Hn|exact Hy].
Qed.

(** ** The interpretation *)

Definition a_char (w : str) : Prop := (exists c, w = [c] /\ In c (letters ++ digits)) \/ In w symbols.
Definition meaning : list (str * (str -> Prop)) :=
  [ (lit "syntax", fun w => exists g, simple_text g w);
    (lit "rule", fun w => exists p, simple_rule p w);
    (lit "opt-whitespace", spaces);
    (lit "expression", fun w => exists es, simple_alts es w);
    (lit "line-end", fun w => exists sp, spaces sp /\ w = sp ++ [10%N]);
    (lit "list", fun w => exists e, simple_list e w);
    (lit "term", fun w => exists t, simple_term t w);
    (lit "literal", fun w => exists s, simple_term (Terminal s) w);
    (lit "text1", simple_string squote);
    (lit "text2", simple_string dquote);
    (lit "character", a_char);
    (lit "letter", fun w => exists c, w = [c] /\ In c letters);
    (lit "digit", fun w => exists c, w = [c] /\ In c digits);
    (lit "symbol", fun w => In w symbols);
    (lit "character1", fun w => a_char w \/ w = [squote]);
    (lit "character2", fun w => a_char w \/ w = [dquote]);
    (lit "rule-name", simple_name);
    (lit "rule-char", fun w => exists c, w = [c] /\ In c (letters ++ digits ++ lit "-"));
    (lit "EOL", fun w => w = [10%N]) ].
Fixpoint lookup (n : str) (m : list (str * (str -> Prop))) (w : str) : Prop :=
  match m with
  | [] => False
  | (k, P) :: m => if str_eqb k n then P w else lookup n m w
  end.
Definition interpret (n w : str) : Prop := lookup n meaning w.

Lemma spaces_nil : spaces [].
Proof. exists 0. reflexivity. Qed.
Lemma spaces_cons s : spaces s -> spaces (32%N :: s).
Proof. intros [k ->]. exists (S k). reflexivity. Qed.

Lemma chars_in e s : In e (chars s) -> exists c, e = [Terminal [c]] /\ In c s.
Proof. unfold chars. rewrite in_map_iff. intros (c & <- & H). exists c. split; [reflexivity|exact H]. Qed.
Lemma words_in e l : In e (map single l) -> exists w, e = [Terminal w] /\ In w l.
Proof. rewrite in_map_iff. intros (c & <- & H). exists c. split; [reflexivity|exact H]. Qed.

Lemma simple_name_snoc n c : simple_name n -> In c (letters ++ digits ++ lit "-") -> simple_name (n ++ [c]).
Proof.
  intros (d & r & -> & Hd & Hr) Hc. exists d, (r ++ [c]). split; [reflexivity|]. split; [exact Hd|].
  intros x Hx. apply in_app_or in Hx. destruct Hx as [Hx|[<-|[]]]; auto.
Qed.

Lemma interpret_closed p n e w :
  In p meta_grammar -> p_lhs p = Nonterminal n -> In e (p_rhs p) -> denotes interpret e w -> interpret n w.
Proof.
  intros Hp Hn He Hw. unfold meta_grammar in Hp. cbn [In] in Hp.
  repeat (destruct Hp as [Hp|Hp]; [subst p; cbn [p_lhs p_rhs] in Hn, He; injection Hn as <-|]); [..|destruct Hp].
  - (* syntax *) destruct He as [<-|[<-|[]]]; cbn [denotes nt] in Hw.
    + destruct Hw as (u & v & -> & (r & Hr) & ->). exists [r]. rewrite app_nil_r. constructor. exact Hr.
    + destruct Hw as (u & v & -> & (r & Hr) & u' & v' & -> & (g & Hg) & ->). exists (r :: g). rewrite app_nil_r.
      constructor; assumption.
  - (* rule *) destruct He as [<-|[]]; cbn [denotes nt tm] in Hw.
    destruct Hw as (s1 & v & -> & H1 & v0 & -> & nm & v1 & -> & H2 & v2 & -> & s2 & v3 & -> & H3 & v4 & -> & s3 & v5 & ->
                    & H4 & x & v6 & -> & (es & H5) & y & v7 & -> & (s4 & H6 & ->) & ->).
    exists (mkProd (Nonterminal nm) es). rewrite app_nil_r.
    exact (simple_production nm es s1 s2 s3 s4 x H2 H1 H3 H4 H6 H5).
  - (* opt-whitespace *) destruct He as [<-|[<-|[]]]; cbn [denotes nt tm] in Hw.
    + destruct Hw as (v & -> & ->). exact spaces_nil.
    + destruct Hw as (v & -> & s & v' & -> & Hs & ->). rewrite app_nil_r. exact (spaces_cons s Hs).
  - (* expression *) destruct He as [<-|[<-|[]]]; cbn [denotes nt tm] in Hw.
    + destruct Hw as (u & v & -> & (r & Hr) & ->). exists [r]. rewrite app_nil_r. constructor. exact Hr.
    + destruct Hw as (u & v & -> & (r & Hr) & s1 & v1 & -> & H1 & v2 & -> & s2 & v3 & -> & H2 & x & v4 & -> & (es & H3) & ->).
      exists (r :: es). rewrite app_nil_r. constructor; assumption.
  - (* line-end *) destruct He as [<-|[]]; cbn [denotes nt tm] in Hw.
    destruct Hw as (s & v & -> & Hs & e & v' & -> & He & ->). exists s. split; [exact Hs|].
    change (e = [10%N]) in He. subst e. reflexivity.
  - (* list *) destruct He as [<-|[<-|[]]]; cbn [denotes nt tm] in Hw.
    + destruct Hw as (u & v & -> & (r & Hr) & ->). exists [r]. rewrite app_nil_r. constructor. exact Hr.
    + destruct Hw as (u & v & -> & (r & Hr) & s1 & v1 & -> & H1 & x & v4 & -> & (es & H3) & ->).
      exists (r :: es). rewrite app_nil_r. constructor; assumption.
  - (* term *) destruct He as [<-|[<-|[]]]; cbn [denotes nt tm] in Hw.
    + destruct Hw as (u & v & -> & (r & Hr) & ->). exists (Terminal r). rewrite app_nil_r. exact Hr.
    + destruct Hw as (v & -> & nm & v1 & -> & H & v2 & -> & ->). exists (Nonterminal nm). exact (simple_nonterminal nm H).
  - (* literal *) destruct He as [<-|[<-|[]]]; cbn [denotes nt tm] in Hw;
      destruct Hw as (v & -> & s & v1 & -> & H & v2 & -> & ->); exists s; [exact (simple_double s H)|exact (simple_single s H)].
  - (* text1 *) destruct He as [<-|[<-|[]]]; cbn [denotes nt tm] in Hw.
    + destruct Hw as (v & -> & ->). exact (simple_empty _).
    + destruct Hw as (u & v & -> & Hu & s & v1 & -> & H & ->). rewrite app_nil_r.
      apply (simple_more squote u s); [|exact H]. destruct Hu as [[Hu|Hu]|Hu]; auto.
  - (* text2 *) destruct He as [<-|[<-|[]]]; cbn [denotes nt tm] in Hw.
    + destruct Hw as (v & -> & ->). exact (simple_empty _).
    + destruct Hw as (u & v & -> & Hu & s & v1 & -> & H & ->). rewrite app_nil_r.
      apply (simple_more dquote u s); [|exact H]. destruct Hu as [[Hu|Hu]|Hu]; auto.
  - (* character *) destruct He as [<-|[<-|[<-|[]]]]; cbn [denotes nt tm] in Hw; destruct Hw as (u & v & -> & Hu & ->); rewrite app_nil_r.
    + destruct Hu as (c & -> & Hc). left. exists c. split; [reflexivity|]. apply in_or_app. left. exact Hc.
    + destruct Hu as (c & -> & Hc). left. exists c. split; [reflexivity|]. apply in_or_app. right. exact Hc.
    + right. exact Hu.
  - (* letter *) apply chars_in in He. destruct He as (c & -> & Hc). cbn [denotes] in Hw. destruct Hw as (v & -> & ->).
    exists c. split; [reflexivity|exact Hc].
  - (* digit *) apply chars_in in He. destruct He as (c & -> & Hc). cbn [denotes] in Hw. destruct Hw as (v & -> & ->).
    exists c. split; [reflexivity|exact Hc].
  - (* symbol *) apply words_in in He. destruct He as (x & -> & Hc). cbn [denotes] in Hw. destruct Hw as (v & -> & ->).
    rewrite app_nil_r. exact Hc.
  - (* character1 *) destruct He as [<-|[<-|[]]]; cbn [denotes nt tm] in Hw.
    + destruct Hw as (u & v & -> & Hu & ->). rewrite app_nil_r. left. exact Hu.
    + destruct Hw as (v & -> & ->). right. reflexivity.
  - (* character2 *) destruct He as [<-|[<-|[]]]; cbn [denotes nt tm] in Hw.
    + destruct Hw as (u & v & -> & Hu & ->). rewrite app_nil_r. left. exact Hu.
    + destruct Hw as (v & -> & ->). right. reflexivity.
  - (* rule-name *) destruct He as [<-|[<-|[]]]; cbn [denotes nt tm] in Hw.
    + destruct Hw as (u & v & -> & (c & -> & Hc) & ->). exists c, []. split; [reflexivity|]. split; [exact Hc|]. intros x [].
    + destruct Hw as (u & v & -> & Hu & u' & v' & -> & (c & -> & Hc) & ->). rewrite app_nil_r.
      exact (simple_name_snoc u c Hu Hc).
  - (* rule-char *) destruct He as [<-|[<-|[<-|[]]]]; cbn [denotes nt tm] in Hw.
    + destruct Hw as (u & v & -> & (c & -> & Hc) & ->). exists c. split; [reflexivity|]. apply in_or_app. left. exact Hc.
    + destruct Hw as (u & v & -> & (c & -> & Hc) & ->). exists c. split; [reflexivity|]. apply in_or_app. right.
      apply in_or_app. left. exact Hc.
    + destruct Hw as (v & -> & ->). exists 45%N. split; [reflexivity|]. apply in_or_app. right. apply in_or_app. right. left. reflexivity.
  - (* EOL *) destruct He as [<-|[]]; cbn [denotes] in Hw. destruct Hw as (v & -> & ->). reflexivity.
Qed.

Lemma sentence_text w : generates meta_grammar (lit "syntax") w -> exists g, simple_text g w.
Proof.
  rewrite generates_parses. intros (t & Hd & Hr & <-).
  exact (closed_sound meta_grammar interpret interpret_closed t Hd _ Hr).
Qed.

(** ** From texts to derivations *)

Local Notation sen n := (made meta_grammar (lit n)).

(** Use the [k]-th rule's alternative [j]. *)
Ltac rule k j :=
  let p := eval cbv [meta_grammar nth] in (nth k meta_grammar (mkProd (Terminal []) [])) in
  let e := eval cbn [p_rhs nth] in (nth j (p_rhs p) []) in
  apply (made_rule meta_grammar p _ e); [cbv [meta_grammar]; cbn [In]; tauto|reflexivity|cbn [p_rhs In]; tauto|cbn [denotes nt tm]].

Lemma sen_spaces s : spaces s -> sen "opt-whitespace" s.
Proof.
  intros [k ->]. induction k as [|k IH]; cbn [repeat].
  - rule 2 0. exists []. split; reflexivity.
  - rule 2 1. exists (repeat 32%N k). split; [reflexivity|]. exists (repeat 32%N k), []. rewrite app_nil_r. auto.
Qed.
Lemma sen_letter c : In c letters -> sen "letter" [c].
Proof.
  intro H. apply (made_rule meta_grammar (mkProd (nt "letter") (chars letters)) _ [Terminal [c]]);
    [cbv [meta_grammar]; cbn [In]; tauto|reflexivity|exact (in_map (fun c => single [c]) letters c H)|].
  exists []. split; reflexivity.
Qed.
Lemma sen_digit c : In c digits -> sen "digit" [c].
Proof.
  intro H. apply (made_rule meta_grammar (mkProd (nt "digit") (chars digits)) _ [Terminal [c]]);
    [cbv [meta_grammar]; cbn [In]; tauto|reflexivity|exact (in_map (fun c => single [c]) digits c H)|].
  exists []. split; reflexivity.
Qed.
Lemma sen_symbol w : In w symbols -> sen "symbol" w.
Proof.
  intro H. apply (made_rule meta_grammar (mkProd (nt "symbol") (map single symbols)) _ [Terminal w]);
    [cbv [meta_grammar]; cbn [In]; tauto|reflexivity|exact (in_map single symbols w H)|].
  exists []. rewrite app_nil_r. split; reflexivity.
Qed.
Ltac one := eexists _, []; rewrite app_nil_r; split; [reflexivity|]; split; [|reflexivity].
Lemma sen_character w : a_char w -> sen "character" w.
Proof.
  intros [(c & -> & H)|H].
  - apply in_app_or in H. destruct H as [H|H].
    + rule 10 0. one. exact (sen_letter c H).
    + rule 10 1. one. exact (sen_digit c H).
  - rule 10 2. one. exact (sen_symbol w H).
Qed.
Lemma sen_text1 s : simple_string squote s -> sen "text1" s.
Proof.
  induction 1 as [|w s Hw _ IH].
  - rule 8 0. exists []. split; reflexivity.
  - rule 8 1. exists w, s. split; [reflexivity|]. split; [|one; exact IH].
    destruct Hw as [H|[H| ->]]; [rule 14 0; one; apply sen_character; left; exact H|rule 14 0; one; apply sen_character; right; exact H|].
    rule 14 1. exists []. split; reflexivity.
Qed.
Lemma sen_text2 s : simple_string dquote s -> sen "text2" s.
Proof.
  induction 1 as [|w s Hw _ IH].
  - rule 9 0. exists []. split; reflexivity.
  - rule 9 1. exists w, s. split; [reflexivity|]. split; [|one; exact IH].
    destruct Hw as [H|[H| ->]]; [rule 15 0; one; apply sen_character; left; exact H|rule 15 0; one; apply sen_character; right; exact H|].
    rule 15 1. exists []. split; reflexivity.
Qed.
Lemma sen_name n : simple_name n -> sen "rule-name" n.
Proof.
  intros (c & r & -> & Hc & Hr). revert Hr. pattern r. apply rev_ind.
  - intros _. rule 16 0. one. exact (sen_letter c Hc).
  - intros x l IH Hr. rule 16 1. exists (c :: l), [x]. split; [reflexivity|].
    split; [apply IH; intros y Hy; apply Hr; apply in_or_app; left; exact Hy|].
    one. specialize (Hr x (in_or_app l [x] x (or_intror (or_introl eq_refl)))).
    apply in_app_or in Hr. destruct Hr as [H|H]; [rule 17 0; one; exact (sen_letter x H)|].
    apply in_app_or in H. destruct H as [H|[<-|[]]]; [rule 17 1; one; exact (sen_digit x H)|].
    rule 17 2. exists []. split; reflexivity.
Qed.
Lemma sen_term t w : simple_term t w -> sen "term" w.
Proof.
  intros [n H|s H|s H].
  - rule 6 1. exists (n ++ lit ">"). split; [reflexivity|]. exists n, (lit ">"). split; [reflexivity|]. split; [exact (sen_name n H)|].
    exists []. split; reflexivity.
  - rule 6 0. one. rule 7 0. exists (s ++ [dquote]). split; [reflexivity|]. exists s, [dquote]. split; [reflexivity|].
    split; [exact (sen_text1 s H)|]. exists []. split; reflexivity.
  - rule 6 0. one. rule 7 1. exists (s ++ [squote]). split; [reflexivity|]. exists s, [squote]. split; [reflexivity|].
    split; [exact (sen_text2 s H)|]. exists []. split; reflexivity.
Qed.
Lemma sen_list e w : simple_list e w -> sen "list" w.
Proof.
  induction 1 as [t w H|t w sp e v H Hs _ IH].
  - rule 5 0. one. exact (sen_term t w H).
  - rule 5 1. exists w, (sp ++ v). split; [reflexivity|]. split; [exact (sen_term t w H)|].
    exists sp, v. split; [reflexivity|]. split; [exact (sen_spaces sp Hs)|]. one. exact IH.
Qed.
Lemma sen_alts es w : simple_alts es w -> sen "expression" w.
Proof.
  induction 1 as [e w H|e w s1 s2 es v H H1 H2 _ IH].
  - rule 3 0. one. exact (sen_list e w H).
  - rule 3 1. exists w, (s1 ++ lit "|" ++ s2 ++ v). split; [reflexivity|]. split; [exact (sen_list e w H)|].
    exists s1, (lit "|" ++ s2 ++ v). split; [reflexivity|]. split; [exact (sen_spaces s1 H1)|].
    exists (s2 ++ v). split; [reflexivity|]. exists s2, v. split; [reflexivity|]. split; [exact (sen_spaces s2 H2)|]. one. exact IH.
Qed.
Lemma sen_rule p w : simple_rule p w -> sen "rule" w.
Proof.
  intros [n es s1 s2 s3 s4 v Hn H1 H2 H3 H4 Hes]. rule 1 0.
  exists s1, (lit "<" ++ n ++ lit ">" ++ s2 ++ lit "::=" ++ s3 ++ v ++ s4 ++ [10%N]). split; [reflexivity|].
  split; [exact (sen_spaces s1 H1)|]. eexists. split; [reflexivity|].
  exists n, (lit ">" ++ s2 ++ lit "::=" ++ s3 ++ v ++ s4 ++ [10%N]). split; [reflexivity|]. split; [exact (sen_name n Hn)|].
  eexists. split; [reflexivity|]. exists s2, (lit "::=" ++ s3 ++ v ++ s4 ++ [10%N]). split; [reflexivity|].
  split; [exact (sen_spaces s2 H2)|]. eexists. split; [reflexivity|]. exists s3, (v ++ s4 ++ [10%N]). split; [reflexivity|].
  split; [exact (sen_spaces s3 H3)|]. exists v, (s4 ++ [10%N]). split; [reflexivity|]. split; [exact (sen_alts es v Hes)|].
  one. rule 4 0. exists s4, [10%N]. split; [reflexivity|]. split; [exact (sen_spaces s4 H4)|]. one.
  rule 18 0. exists []. split; reflexivity.
Qed.
Lemma text_sentence g w : simple_text g w -> generates meta_grammar (lit "syntax") w.
Proof.
  intro H. apply generates_parses. change (sen "syntax" w). induction H as [p w H|p w g v H _ IH].
  - rule 0 0. one. exact (sen_rule p w H).
  - rule 0 1. exists w, v. split; [reflexivity|]. split; [exact (sen_rule p w H)|]. one. exact IH.
Qed.

(** ** Reading the texts *)

Lemma excludes (l : str) c : forallb (fun x => negb (N.eqb c x)) l = true -> ~ In c l.
Proof. rewrite forallb_forall. intros H Hc. specialize (H c Hc). rewrite N.eqb_refl in H. discriminate. Qed.

Lemma name_token al n : simple_name n -> token_text al Bnf (TokName n) (lit "<" ++ n ++ lit ">").
Proof.
  intros (c & r & -> & Hc & Hr). constructor. intros [->|H].
  - revert Hc. apply excludes. reflexivity.
  - apply Hr in H. revert H. apply excludes. reflexivity.
Qed.
Lemma other_quote q q' s : (q = squote /\ q' = dquote) \/ (q = dquote /\ q' = squote) -> simple_string q s -> ~ In q' s.
Proof.
  intros Hq. induction 1 as [|w s Hw _ IH]; [intros []|]. intro H. apply in_app_or in H. destruct H as [H|H]; [|exact (IH H)].
  clear IH. destruct Hw as [(c & -> & Hc)|[Hw| ->]].
  - destruct H as [->|[]]. revert Hc. destruct Hq as [(_ & ->)|(_ & ->)]; apply excludes; reflexivity.
  - assert (Hf : forallb (fun w => forallb (fun x => negb (N.eqb squote x) && negb (N.eqb dquote x)) w) symbols = true) by reflexivity.
    rewrite forallb_forall in Hf. specialize (Hf w Hw). rewrite forallb_forall in Hf. specialize (Hf q' H).
    destruct Hq as [(_ & ->)|(_ & ->)]; discriminate.
  - destruct H as [H|[]]. destruct Hq as [(-> & ->)|(-> & ->)]; discriminate.
Qed.

Lemma spaces_layout sp l : spaces sp -> layout l -> layout (sp ++ l).
Proof.
  intros [k ->] Hl. induction k as [|k IH]; cbn [repeat app]; [exact Hl|]. constructor; [reflexivity|exact IH].
Qed.
Lemma spaces_lay sp : spaces sp -> layout sp.
Proof. intro H. rewrite <- (app_nil_r sp). apply spaces_layout; [exact H|constructor]. Qed.

Lemma layout_join a b : layout a -> layout b -> layout (a ++ b).
Proof.
  intros Ha Hb. induction Ha as [|c l Hc _ IH|body nl l Hbody Hnl _ IH]; [exact Hb|constructor; assumption|].
  replace ((lit ";" ++ body ++ nl :: l) ++ b) with (lit ";" ++ body ++ nl :: (l ++ b)) by (cbn; rewrite <- app_assoc; reflexivity).
  constructor; assumption.
Qed.

Section Read.
Variable al : char -> bool.

Lemma says_simple_term t w : simple_term t w -> exists toks, term_toks (Simple t) toks /\ says al toks w.
Proof.
  intros [n H|s H|s H].
  - exists [TokName n]. split; [constructor|]. apply says_token; [exact (name_token al n H)|discriminate|discriminate].
  - exists [TokString dquote s]. split; [constructor|]. apply says_token; [|discriminate|discriminate].
    constructor; [right; left; reflexivity|]. apply (other_quote squote dquote); auto.
  - exists [TokString squote s]. split; [constructor|]. apply says_token; [|discriminate|discriminate].
    constructor; [left; reflexivity|]. apply (other_quote dquote squote); auto.
Qed.
Lemma says_simple_list e w : simple_list e w -> e <> [] /\ exists toks, terms_toks (map Simple e) toks /\ says al toks w.
Proof.
  induction 1 as [t w H|t w sp e v H Hs _ (_ & toks' & H2 & H3)]; (split; [discriminate|]);
    destruct (says_simple_term t w H) as (toks & H0 & H1).
  - exists (toks ++ []). split; [constructor; [exact H0|constructor]|]. rewrite app_nil_r. exact H1.
  - exists (toks ++ toks'). split; [constructor; assumption|]. apply says_app; [exact H1|exact (spaces_lay sp Hs)|exact H3].
Qed.
Lemma says_alt : says al [TokAlt] (lit "|").
Proof. apply says_token; [constructor|discriminate|discriminate]. Qed.
Lemma map_Simple_nil (e : expression) : e <> [] -> map Simple e <> [].
Proof. destruct e; [contradiction|discriminate]. Qed.
Lemma says_simple_alts es w : simple_alts es w -> exists toks, alts_toks (map (map Simple) es) toks /\ says al toks w.
Proof.
  induction 1 as [e w H|e w s1 s2 es v H Hs1 Hs2 _ (toks' & H2 & H3)];
    destruct (says_simple_list e w H) as (He & toks & H0 & H1).
  - exists toks. split; [constructor; [exact (map_Simple_nil e He)|exact H0]|exact H1].
  - exists (toks ++ TokAlt :: toks'). split; [constructor; [exact (map_Simple_nil e He)|exact H0|exact H2]|].
    apply says_app; [exact H1|exact (spaces_lay s1 Hs1)|].
    apply (says_app al [TokAlt] (lit "|") s2 toks' v says_alt (spaces_lay s2 Hs2) H3).
Qed.

(** A rule is its layout, its tokens, and layout. *)
Lemma says_simple_rule p w : simple_rule p w -> exists n toks lay v lay', p_lhs p = Nonterminal n /\
  production_toks (mkParsed n (map (map Simple) (p_rhs p))) toks /\ w = lay ++ v ++ lay' /\ layout lay /\ layout lay' /\ says al toks v.
Proof.
  intros [n es s1 s2 s3 s4 v Hn H1 H2 H3 H4 Hes]. cbn [p_lhs p_rhs]. destruct (says_simple_alts es v Hes) as (toks & Ht & Hv).
  exists n, (TokName n :: TokDefine false :: toks), s1, ((lit "<" ++ n ++ lit ">") ++ s2 ++ lit "::=" ++ s3 ++ v), (s4 ++ [10%N]).
  split; [reflexivity|]. split; [exists false, toks; split; [exact Ht|reflexivity]|].
  split; [rewrite <- !app_assoc; reflexivity|]. split; [exact (spaces_lay s1 H1)|].
  split; [apply spaces_layout; [exact H4|exact layout_newline]|].
  apply (says_app al [TokName n] _ s2 (TokDefine false :: toks));
    [apply says_token; [exact (name_token al n Hn)|discriminate|discriminate]|exact (spaces_lay s2 H2)|].
  apply (says_app al [TokDefine false] (lit "::=") s3 toks);
    [apply says_token; [constructor|discriminate|discriminate]|exact (spaces_lay s3 H3)|exact Hv].
Qed.

Lemma simple_text_spells g w : simple_text g w -> g <> [] /\ exists pg toks lay v,
  Forall2 (fun p p' => plain p = Some p') g pg /\ productions_toks pg toks /\ w = lay ++ v /\ layout lay /\ spells al Bnf toks v.
Proof.
  induction 1 as [p w H|p w g v H _ (Hg & pg & toks' & lay2 & v2 & H1 & H2 & -> & H3 & H4)]; (split; [discriminate|]);
    destruct (says_simple_rule p w H) as (n & toks & lay & u & lay' & E & H0 & -> & Hl & Hl' & Hs).
  - exists [mkParsed n (map (map Simple) (p_rhs p))], (toks ++ []), lay, (u ++ lay').
    split; [constructor; [unfold plain; rewrite E; reflexivity|constructor]|].
    split; [constructor; [exact H0|constructor]|]. split; [reflexivity|]. split; [exact Hl|].
    rewrite app_nil_r. apply says_spells; assumption.
  - exists (mkParsed n (map (map Simple) (p_rhs p)) :: pg), (toks ++ toks'), lay, (u ++ (lay' ++ lay2) ++ v2).
    split; [constructor; [unfold plain; rewrite E; reflexivity|exact H1]|].
    split; [constructor; [exact H0|exact H2]|]. split; [rewrite <- !app_assoc; reflexivity|]. split; [exact Hl|].
    apply Hs; [|exact H4]. apply layout_join; assumption.
Qed.

Lemma simple_text_read g w : alphabetic_ok al -> simple_text g w -> grammar_from_str al w = Ok (ROk g).
Proof.
  intros Hal H. destruct (simple_text_spells g w H) as (Hg & pg & toks & lay & v & H1 & H2 & -> & H3 & H4).
  apply (grammar_from_str_exact al Hal). exists Bnf, pg. split; [|exact (normalize_plain g pg H1)].
  exists lay, v, toks. split; [reflexivity|]. split; [exact H3|]. split; [|split; assumption].
  intros ->. inversion H1. congruence.
Qed.
End Read.

(** ** Displayed grammars *)

Lemma simple_requote q q' s : ~ In q s -> simple_string q s -> simple_string q' s.
Proof.
  intros Hq. induction 1 as [|w s Hw _ IH]; [constructor|]. constructor.
  - destruct Hw as [H|[H| ->]]; auto. exfalso. apply Hq. left. reflexivity.
  - apply IH. intro H. apply Hq. apply in_or_app. right. exact H.
Qed.
Lemma simple_display_term t :
  match t with Nonterminal n => simple_name n | Terminal s => simple_string squote s \/ simple_string dquote s end ->
  simple_term t (display_term t).
Proof.
  destruct t as [s|n]; intro H; cbn [display_term]; [|constructor; exact H].
  destruct (str_contains squote s) eqn:E.
  - apply contains_In in E. constructor. destruct H as [H|H]; [exact H|]. exfalso. exact (other_quote dquote squote s (or_intror (conj eq_refl eq_refl)) H E).
  - constructor. destruct H as [H|H]; [|exact H]. apply (simple_requote squote dquote); [|exact H]. intro H0. apply contains_In in H0. congruence.
Qed.
Lemma blank_spaces : spaces (lit " ").
Proof. exists 1. reflexivity. Qed.
Lemma simple_display_list e : e <> [] -> (forall t, In t e -> simple_term t (display_term t)) -> simple_list e (display_expression e).
Proof.
  unfold display_expression. induction e as [|t e IH]; [contradiction|]. intros _ H. destruct e as [|t' e].
  - cbn [map join]. constructor. apply H. left. reflexivity.
  - cbn [map]. rewrite join_cons. apply simple_next; [apply H; left; reflexivity|exact blank_spaces|].
    apply IH; [discriminate|]. intros x Hx. apply H. right. exact Hx.
Qed.
Lemma simple_display_alts es : es <> [] -> (forall e, In e es -> simple_list e (display_expression e)) ->
  simple_alts es (join (lit " | ") (map display_expression es)).
Proof.
  induction es as [|e es IH]; [contradiction|]. intros _ H. destruct es as [|e' es].
  - cbn [map join]. constructor. apply H. left. reflexivity.
  - cbn [map]. rewrite join_cons. change (lit " | ") with (lit " " ++ lit "|" ++ lit " ") at 1. rewrite <- !app_assoc.
    apply simple_alt; [apply H; left; reflexivity|exact blank_spaces|exact blank_spaces|].
    apply IH; [discriminate|]. intros x Hx. apply H. right. exact Hx.
Qed.
Lemma simple_display_rule p n : p_lhs p = Nonterminal n -> simple_name n -> simple_alts (p_rhs p) (join (lit " | ") (map display_expression (p_rhs p))) ->
  simple_rule p (display_production p ++ [10%N]).
Proof.
  destruct p as [l es]. cbn [p_lhs p_rhs]. intros -> Hn H. unfold display_production. cbn [p_lhs p_rhs display_term].
  pose proof (simple_production n es [] (lit " ") (lit " ") [] _ Hn spaces_nil blank_spaces blank_spaces spaces_nil H) as Hr.
  replace ((_ ++ lit " ::= " ++ _) ++ [10%N]) with
    ([] ++ lit "<" ++ n ++ lit ">" ++ lit " " ++ lit "::=" ++ lit " " ++ join (lit " | ") (map display_expression es) ++ [] ++ [10%N]); [exact Hr|].
  rewrite <- !app_assoc. reflexivity.
Qed.
Lemma simple_display g : simple_grammar g -> simple_text g (display_grammar g).
Proof.
  intros [Hg H]. unfold display_grammar. revert Hg H. induction g as [|p g IH]; [contradiction|]. intros _ H.
  assert (Hp : simple_rule p (display_production p ++ [10%N])).
  { destruct (H p (or_introl eq_refl)) as ((n & E & Hn) & Hr & He). apply (simple_display_rule p n E Hn).
    apply simple_display_alts; [exact Hr|]. intros e Hin. destruct (He e Hin) as [H1 H2].
    apply simple_display_list; [exact H1|]. intros t Ht. apply simple_display_term. exact (H2 t Ht). }
  destruct g as [|q g].
  - cbn [map join]. constructor. exact Hp.
  - cbn [map]. rewrite join_cons. rewrite <- !app_assoc, app_assoc.
    apply (simple_rules p (display_production p ++ [10%N]) (q :: g)); [exact Hp|].
    apply IH; [discriminate|]. intros x Hx. apply H. right. exact Hx.
Qed.
