(** Proofs about generation. *)
From Verif Require Export Strategies GenSpec EarleyMain.

(** ** The guard decides productivity *)

Definition productive (g : grammar) (t : term) : Prop := exists tr, derives g tr /\ root tr = t.

Lemma is_nonterminal_spec t : is_nonterminal t = true <-> exists n, t = Nonterminal n.
Proof. destruct t as [s|n]; cbn; split; intro H; try discriminate; eauto. destruct H; discriminate. Qed.

Lemma term_memb_In x l : memb term_eqb x l = true <-> In x l.
Proof. apply memb_In, term_eqb_eq. Qed.

Lemma expr_terminates_some e rules :
  expr_terminates e (Some rules) = true <-> forall n, In (Nonterminal n) e -> In (Nonterminal n) rules.
Proof.
  unfold expr_terminates. destruct (existsb is_nonterminal e) eqn:E; cbn [negb].
  - rewrite forallb_forall. split; intros H.
    + intros n Hn. apply term_memb_In. apply H. apply filter_In. split; [assumption|reflexivity].
    + intros t Ht. apply filter_In in Ht. destruct Ht as [Ht Hnt]. apply is_nonterminal_spec in Hnt.
      destruct Hnt as [n ->]. apply term_memb_In. apply H. assumption.
  - split; [|reflexivity]. intros _ n Hn. exfalso.
    assert (existsb is_nonterminal e = true) by (apply existsb_exists; exists (Nonterminal n); auto). congruence.
Qed.

Lemma expr_terminates_none e : expr_terminates e None = true <-> forall n, ~ In (Nonterminal n) e.
Proof.
  unfold expr_terminates. destruct (existsb is_nonterminal e) eqn:E; cbn [negb].
  - split; [discriminate|]. intro H. exfalso. apply existsb_exists in E. destruct E as (t & Ht & Hnt).
    apply is_nonterminal_spec in Hnt. destruct Hnt as [n ->]. exact (H n Ht).
  - split; [|reflexivity]. intros _ n Hn.
    assert (existsb is_nonterminal e = true) by (apply existsb_exists; exists (Nonterminal n); auto). congruence.
Qed.

Lemma has_term_some p rules : has_terminating_expression p (Some rules) = true <->
  exists e, In e (p_rhs p) /\ forall n, In (Nonterminal n) e -> In (Nonterminal n) rules.
Proof.
  unfold has_terminating_expression. rewrite existsb_exists.
  split; intros (e & H1 & H2); exists e; (split; [assumption|]); apply expr_terminates_some; assumption.
Qed.
Lemma has_term_none p : has_terminating_expression p None = true <->
  exists e, In e (p_rhs p) /\ forall n, ~ In (Nonterminal n) e.
Proof.
  unfold has_terminating_expression. rewrite existsb_exists.
  split; intros (e & H1 & H2); exists e; (split; [assumption|]); apply expr_terminates_none; assumption.
Qed.

Lemma kids_exist g e : (forall n, In (Nonterminal n) e -> productive g (Nonterminal n)) -> exists ks, kids_match g e ks.
Proof.
  induction e as [|t e IH]; intro H; [exists []; constructor|].
  destruct IH as [ks Hk]; [intros; apply H; right; assumption|]. destruct t as [s|n].
  - exists (Leaf s :: ks). constructor. assumption.
  - destruct (H n) as (tr & Hd & Hr); [left; reflexivity|]. exists (Sub tr :: ks). constructor; assumption.
Qed.

Lemma productive_rule g p e : In p g -> In e (p_rhs p) ->
  (forall n, In (Nonterminal n) e -> productive g (Nonterminal n)) -> productive g (p_lhs p).
Proof.
  intros Hp He H. destruct (kids_exist g e H) as [ks Hk].
  exists (Node (p_lhs p) ks). split; [econstructor; eassumption|reflexivity].
Qed.

Lemma kids_match_nt g e ks n : kids_match g e ks -> In (Nonterminal n) e ->
  exists t, In (Sub t) ks /\ root t = Nonterminal n /\ derives g t.
Proof.
  induction 1 as [|s r ks Hk IH|m t r ks Hroot Ht Hk IH]; [intros []| |].
  - intros [E|Hin]; [discriminate|]. destruct (IH Hin) as (t & H1 & H2). exists t. split; [right; assumption|assumption].
  - intros [E|Hin].
    + injection E as ->. exists t. split; [left; reflexivity|auto].
    + destruct (IH Hin) as (t' & H1 & H2). exists t'. split; [right; assumption|assumption].
Qed.

(** The marking is closed: no unmarked production could be marked. *)
Definition marking_closed (g : grammar) (rules : list term) : Prop :=
  forall p, In p g -> In (p_lhs p) rules \/ has_terminating_expression p (Some rules) = false.

Lemma closed_complete g rules : marking_closed g rules -> forall t, productive g t -> In t rules.
Proof.
  intros Hc t (tr & Hd & <-). revert Hd. induction tr as [l kids IH] using tree_ind'. intro Hd.
  inversion Hd as [p rhs kids' Hp Hr Hk E1]; subst. cbn [root].
  destruct (Hc p Hp) as [H|H]; [assumption|exfalso].
  assert (has_terminating_expression p (Some rules) = true); [|congruence].
  apply has_term_some. exists rhs. split; [assumption|]. intros n Hn.
  destruct (kids_match_nt _ _ _ _ Hk Hn) as (t & Ht & Hrt & Hdt). rewrite <- Hrt. apply IH; assumption.
Qed.

Lemma term_init_spec g t : In t (term_init g) <->
  exists p, In p g /\ p_lhs p = t /\ has_terminating_expression p None = true.
Proof.
  unfold term_init. rewrite in_flat_map. split.
  - intros (p & Hp & H). destruct (has_terminating_expression p None) eqn:E; [|destruct H].
    destruct H as [<-|[]]. eauto.
  - intros (p & Hp & <- & E). exists p. rewrite E. split; [assumption|left; reflexivity].
Qed.

Definition all_productive (g : grammar) (rules : list term) := forall t, In t rules -> productive g t.

Lemma term_init_productive g : all_productive g (term_init g).
Proof.
  intros t Ht. apply term_init_spec in Ht. destruct Ht as (p & Hp & <- & H). apply has_term_none in H.
  destruct H as (e & He & Hn). eapply productive_rule; [eassumption|eassumption|].
  intros n Hin. destruct (Hn n Hin).
Qed.

Lemma mark_productive g p rules : In p g -> all_productive g rules ->
  has_terminating_expression p (Some rules) = true -> productive g (p_lhs p).
Proof.
  intros Hp Ha H. apply has_term_some in H. destruct H as (e & He & Hn).
  eapply productive_rule; [eassumption|eassumption|]. intros n Hin. apply Ha, Hn, Hin.
Qed.

Lemma term_pass_spec g start : forall ps rules b, incl ps g -> all_productive g rules ->
  match term_pass start ps rules b with
  | None => productive g start
  | Some (rules', b') => all_productive g rules' /\ incl rules rules' /\
      (b' = false -> b = false /\ rules' = rules /\
         forall p, In p ps -> In (p_lhs p) rules \/ has_terminating_expression p (Some rules) = false) /\
      (b' = true -> b = true \/ exists p, In p ps /\ ~ In (p_lhs p) rules /\ In (p_lhs p) rules')
  end.
Proof.
  induction ps as [|p ps IH]; intros rules b Hi Ha; cbn [term_pass].
  - split; [assumption|]. split; [apply incl_refl|]. split.
    + intros ->. repeat split. intros p [].
    + auto.
  - assert (Hi' : incl ps g) by (intros x Hx; apply Hi; right; assumption).
    assert (Hp : In p g) by (apply Hi; left; reflexivity).
    destruct (memb term_eqb (p_lhs p) rules) eqn:E1.
    + apply term_memb_In in E1. specialize (IH rules b Hi' Ha).
      destruct (term_pass start ps rules b) as [[rules' b']|]; [|assumption].
      destruct IH as (H1 & H2 & H3 & H4). repeat (split; [assumption|]). split.
      * intro Hb. destruct (H3 Hb) as (G1 & G2 & G3). repeat (split; [assumption|]).
        intros q [<-|Hq]; [left; assumption|apply G3; assumption].
      * intro Hb. destruct (H4 Hb) as [?|(q & Hq & H)]; [left; assumption|]. right. exists q. split; [right|]; assumption.
    + assert (Hnin : ~ In (p_lhs p) rules) by (rewrite <- term_memb_In; congruence).
      destruct (has_terminating_expression p (Some rules)) eqn:E2.
      * pose proof (mark_productive g p rules Hp Ha E2) as Hprod.
        destruct (term_eqb (p_lhs p) start) eqn:E3.
        { apply term_eqb_eq in E3. rewrite <- E3. assumption. }
        assert (Ha' : all_productive g (rules ++ [p_lhs p])).
        { intros t Ht. apply in_app_or in Ht. destruct Ht as [Ht|[<-|[]]]; [apply Ha; assumption|assumption]. }
        specialize (IH (rules ++ [p_lhs p]) true Hi' Ha').
        destruct (term_pass start ps (rules ++ [p_lhs p]) true) as [[rules' b']|]; [|assumption].
        destruct IH as (H1 & H2 & H3 & H4). split; [assumption|]. split.
        { intros x Hx. apply H2. apply in_or_app; left; assumption. }
        split.
        { intro Hb. destruct (H3 Hb) as (G1 & _). discriminate. }
        intros _. right. exists p. split; [left; reflexivity|]. split; [assumption|].
        apply H2. apply in_or_app; right; left; reflexivity.
      * specialize (IH rules b Hi' Ha).
        destruct (term_pass start ps rules b) as [[rules' b']|]; [|assumption].
        destruct IH as (H1 & H2 & H3 & H4). repeat (split; [assumption|]). split.
        { intro Hb. destruct (H3 Hb) as (G1 & G2 & G3). repeat (split; [assumption|]).
          intros q [<-|Hq]; [right; assumption|apply G3; assumption]. }
        { intro Hb. destruct (H4 Hb) as [?|(q & Hq & H)]; [left; assumption|]. right. exists q. split; [right|]; assumption. }
Qed.

Lemma term_loop_spec g start fuel : forall rules b, all_productive g rules ->
  term_loop fuel start g rules = Ok b -> (b = true <-> productive g start).
Proof.
  induction fuel as [|fuel IH]; intros rules b Ha H; cbn [term_loop] in H; [discriminate|].
  pose proof (term_pass_spec g start g rules false (incl_refl g) Ha) as Hs.
  destruct (term_pass start g rules false) as [[rules' b']|].
  - destruct Hs as (H1 & H2 & H3 & H4). destruct b'.
    + eapply IH; [|exact H]. assumption.
    + injection H as <-. destruct (H3 eq_refl) as (_ & -> & Hcl). rewrite term_memb_In. split.
      * apply Ha.
      * apply closed_complete. exact Hcl.
  - injection H as <-. split; auto.
Qed.

(** Number of unmarked productions. *)
Definition unmarked (rules : list term) (g : grammar) : nat :=
  length (filter (fun p => negb (memb term_eqb (p_lhs p) rules)) g).

Lemma unmarked_le rules rules' g : incl rules rules' -> unmarked rules' g <= unmarked rules g.
Proof.
  intro Hi. unfold unmarked. induction g as [|p g IH]; cbn; [lia|].
  destruct (memb term_eqb (p_lhs p) rules) eqn:E.
  - apply term_memb_In in E. apply Hi in E. apply term_memb_In in E. rewrite E. cbn. assumption.
  - destruct (memb term_eqb (p_lhs p) rules'); cbn; lia.
Qed.

Lemma unmarked_lt rules rules' g p : incl rules rules' -> In p g ->
  ~ In (p_lhs p) rules -> In (p_lhs p) rules' -> unmarked rules' g < unmarked rules g.
Proof.
  intros Hi Hp Hn Hin. apply in_split in Hp. destruct Hp as (l1 & l2 & ->).
  unfold unmarked. rewrite !filter_app, !app_length. cbn.
  rewrite <- term_memb_In in Hn. apply not_true_iff_false in Hn. rewrite Hn.
  apply term_memb_In in Hin. rewrite Hin. cbn.
  pose proof (unmarked_le rules rules' l1 Hi). pose proof (unmarked_le rules rules' l2 Hi).
  unfold unmarked in *. lia.
Qed.

Lemma term_loop_ends g start fuel : forall rules, all_productive g rules -> unmarked rules g < fuel ->
  exists b, term_loop fuel start g rules = Ok b.
Proof.
  induction fuel as [|fuel IH]; intros rules Ha Hf; [lia|]. cbn [term_loop].
  pose proof (term_pass_spec g start g rules false (incl_refl g) Ha) as Hs.
  destruct (term_pass start g rules false) as [[rules' [|]]|]; eauto.
  destruct Hs as (H1 & H2 & H3 & H4). apply IH; [assumption|].
  destruct (H4 eq_refl) as [?|(p & Hp & Hn & Hin)]; [discriminate|].
  pose proof (unmarked_lt rules rules' g p H2 Hp Hn Hin). lia.
Qed.

Lemma unmarked_length rules g : unmarked rules g <= length g.
Proof. unfold unmarked. induction g as [|p g IH]; cbn; [lia|]. destruct (negb _); cbn; lia. Qed.

Lemma terminates_ends fuel g : length g < fuel -> exists b, terminates fuel g = Ok b.
Proof.
  intro Hf. unfold terminates. destruct (starting_term g) as [start|]; [|eauto].
  pose proof (term_init_productive g) as Ha.
  pose proof (unmarked_length (term_init g) g) as Hl.
  destruct (term_init g) as [|t rules]; [eauto|]. apply term_loop_ends; [assumption|lia].
Qed.

Lemma init_nil_closed g : term_init g = [] -> marking_closed g [].
Proof.
  intros H p Hp. right. apply not_true_iff_false. intro Ht.
  assert (Hin : In (p_lhs p) (term_init g)).
  { apply term_init_spec. exists p. split; [assumption|]. split; [reflexivity|].
    apply has_term_none. apply has_term_some in Ht. destruct Ht as (e & He & Hn). exists e. split; [assumption|].
    intros n Hin. exact (Hn n Hin). }
  rewrite H in Hin. destruct Hin.
Qed.

Lemma terminates_spec fuel g b : terminates fuel g = Ok b ->
  (b = true <-> match starting_term g with None => True | Some start => productive g start end).
Proof.
  unfold terminates. destruct (starting_term g) as [start|].
  - pose proof (term_init_productive g) as Ha. destruct (term_init g) as [|t rules] eqn:E.
    + intro H. injection H as <-. split; [discriminate|]. intro Hp.
      destruct (closed_complete g [] (init_nil_closed g E) _ Hp).
    + intro H. eapply term_loop_spec; [|exact H]. assumption.
  - intro H. injection H as <-. tauto.
Qed.

(** ** Lookup of productions *)

Lemma find_production_Some g n : forall ix i p, find_production g n ix = Some (i, p) ->
  first_for g n p /\ ix <= i /\ nth_error g (i - ix) = Some p.
Proof.
  induction g as [|q g IH]; intros ix i p H; cbn [find_production] in H; [discriminate|].
  destruct (term_eqb (p_lhs q) (Nonterminal n)) eqn:E.
  - injection H as <- <-. apply term_eqb_eq in E. split.
    + exists [], g. repeat split; [assumption|]. intros r [].
    + rewrite Nat.sub_diag. split; [lia|reflexivity].
  - destruct (IH _ _ _ H) as ((l1 & l2 & -> & H2 & H3) & Hle & Hn). split.
    + exists (q :: l1), l2. repeat split; [assumption|]. intros r [<-|Hr]; [|apply H3; assumption].
      intro E'. rewrite E', term_eqb_refl in E. discriminate.
    + split; [lia|]. destruct (i - ix) as [|k] eqn:Ek; [lia|]. replace (i - S ix) with k in Hn by lia. exact Hn.
Qed.

Lemma find_production_None g n : forall ix, find_production g n ix = None -> ~ has_lhs g n.
Proof.
  induction g as [|q g IH]; intros ix H (p & Hp & Hl); [destruct Hp|]. cbn [find_production] in H.
  destruct (term_eqb (p_lhs q) (Nonterminal n)) eqn:E; [discriminate|].
  destruct Hp as [<-|Hp].
  - rewrite Hl, term_eqb_refl in E. discriminate.
  - apply (IH _ H). exists p. auto.
Qed.

Lemma find_production_first g n p : first_for g n p -> exists i, find_production g n 0 = Some (i, p).
Proof.
  intros (l1 & l2 & -> & Hl & Hb). generalize 0 as ix. induction l1 as [|q l1 IH]; intro ix; cbn.
  - rewrite Hl, term_eqb_refl. eauto.
  - destruct (term_eqb (p_lhs q) (Nonterminal n)) eqn:E.
    + apply term_eqb_eq in E. exfalso. apply (Hb q); [left; reflexivity|assumption].
    + apply IH. intros r Hr. apply Hb. right; assumption.
Qed.

Lemma first_for_In g n p : first_for g n p -> In p g /\ p_lhs p = Nonterminal n.
Proof. intros (l1 & l2 & -> & H & _). split; [apply in_or_app; right; left; reflexivity|assumption]. Qed.

Lemma first_for_has_lhs g n p : first_for g n p -> has_lhs g n.
Proof. intro H. apply first_for_In in H. exists p. assumption. Qed.

Lemma no_choice_spec p : production_has_no_choice p = true <-> p_rhs p = [] \/ p_rhs p = [[]].
Proof.
  unfold production_has_no_choice. destruct (p_rhs p) as [|[|t e] [|e' r]]; split; intro H; auto;
    try discriminate; destruct H; discriminate.
Qed.

(** ** Soundness *)

Section Sound.
  Context {S : Type}.
  Variable choose : S -> nat -> production -> nat -> res (option expression * S).
  Variable accept : S -> str -> str -> bool * S.
  Variable g : grammar.
  Hypothesis Hlaw : lawful choose.
  Variable ok : str -> str -> Prop.
  Hypothesis Hok : forall st n w st', accept st n w = (true, st') -> ok n w.

  Lemma eval_terms_spec (eval : term -> S -> res (result str * S)) :
    (forall t st w st', eval t st = Ok (ROk w, st') -> expansion g ok t w) ->
    forall e acc st w st', eval_terms eval e acc st = Ok (ROk w, st') ->
    exists w', w = acc ++ w' /\ expansions g ok e w'.
  Proof.
    intro He. induction e as [|t e IH]; intros acc st w st' H; cbn [eval_terms] in H.
    - injection H as <- <-. exists []. rewrite app_nil_r. split; [reflexivity|constructor].
    - destruct (eval t st) as [[[s|x] st1]| |] eqn:E; cbn [rbind] in H; try discriminate.
      apply He in E. destruct (IH _ _ _ _ H) as (w' & -> & Hw). exists (s ++ w').
      rewrite app_assoc. split; [reflexivity|]. constructor; assumption.
  Qed.

  Lemma traverse_sound fuel : forall ident st depth w st',
    traverse choose accept g fuel ident st depth = Ok (ROk w, st') -> expansion g ok (Nonterminal ident) w.
  Proof.
    induction fuel as [|fuel IH]; intros ident st depth w st' H; cbn [traverse] in H; [discriminate|].
    destruct (find_production g ident 0) as [[ix p]|] eqn:Ef.
    - destruct (production_has_no_choice p); [discriminate|].
      destruct (choose st ix p depth) as [[[e|] st1]| |] eqn:Ec; cbn [rbind] in H; try discriminate.
      match type of H with context [eval_terms ?ev e [] st1] => set (eval := ev) in * end.
      destruct (eval_terms eval e [] st1) as [[[s|x] st2]| |] eqn:Ee; cbn [rbind] in H; try discriminate.
      destruct (accept st2 ident s) as [[|] st3] eqn:Ea.
      + injection H as <- <-. apply eval_terms_spec in Ee.
        * destruct Ee as (w' & -> & Hw). cbn in Ea |- *.
          apply find_production_Some in Ef. apply (ex_rule g ok ident p e w'); [apply Ef|eapply Hlaw; exact Ec|assumption|].
          eapply Hok; exact Ea.
        * intros t st4 w st5 Hev. unfold eval in Hev. destruct t as [s'|nt].
          -- injection Hev as <- <-. constructor.
          -- eapply IH; exact Hev.
      + eapply IH; exact H.
    - injection H as <- <-. apply ex_undefined. eapply find_production_None; exact Ef.
  Qed.

  Lemma generate_sound fuel st w st' : generate choose accept g fuel st = Ok (ROk w, st') ->
    exists n p rest, g = p :: rest /\ p_lhs p = Nonterminal n /\ expansion g ok (Nonterminal n) w.
  Proof.
    unfold generate. destruct (terminates fuel g) as [[|]| |]; cbn [rbind negb]; try discriminate.
    destruct g as [|p rest] eqn:Eg; [discriminate|]. destruct (p_lhs p) as [s|n] eqn:El; [discriminate|].
    intro H. exists n, p, rest. split; [reflexivity|]. split; [assumption|].
    rewrite <- Eg in *. eapply traverse_sound; exact H.
  Qed.
End Sound.

Lemma expansion_weaken g (ok ok' : str -> str -> Prop) : (forall n w, ok n w -> ok' n w) ->
  (forall t w, expansion g ok t w -> expansion g ok' t w) /\
  (forall e w, expansions g ok e w -> expansions g ok' e w).
Proof.
  intro H. apply expansion_mutind; intros; try (constructor; assumption).
  econstructor; try eassumption. auto.
Qed.

(** ** Expansions and derivations *)

Lemma expansion_derives g ok : (forall x, refers g x -> has_lhs g x) ->
  (forall t w, expansion g ok t w -> forall n, t = Nonterminal n -> has_lhs g n ->
     exists tr, derives g tr /\ root tr = t /\ yield tr = w) /\
  (forall e w, expansions g ok e w -> (forall n, In (Nonterminal n) e -> has_lhs g n) ->
     exists ks, kids_match g e ks /\ flat_map yield_node ks = w).
Proof.
  intro Hv. apply expansion_mutind.
  - discriminate.
  - intros n Hn m E Hm. injection E as ->. contradiction.
  - intros n p e w Hf He Hes IH Hk m E Hm. apply first_for_In in Hf. destruct Hf as [Hp Hl].
    destruct IH as (ks & Hks & Hy). { intros x Hx. apply Hv. exists p, e. auto. }
    exists (Node (p_lhs p) ks). split; [econstructor; eassumption|]. split; [assumption|exact Hy].
  - intros _. exists []. split; [constructor|reflexivity].
  - intros t e w1 w2 Ht IHt He IHe Hall. destruct IHe as (ks & Hk & Hy). { intros; apply Hall; right; assumption. }
    destruct t as [s|n].
    + inversion Ht; subst. exists (Leaf w1 :: ks). split; [constructor; assumption|reflexivity].
    + destruct (IHt n eq_refl) as (tr & Hd & Hr & Hyt). { apply Hall; left; reflexivity. }
      exists (Sub tr :: ks). split; [constructor; assumption|]. cbn. rewrite Hyt, Hy. reflexivity.
Qed.

Lemma generate_then_parse {S} (choose : S -> nat -> production -> nat -> res (option expression * S))
    accept ho g p fuel st w st' :
  lawful choose -> build_parser ho g = ROk p ->
  generate choose accept g fuel st = Ok (ROk w, st') ->
  exists it fuel' t it', parse_input p w = Ok it /\ iter_next fuel' it = Ok (Some t, it').
Proof.
  intros Hl Hb Hg.
  destruct (generate_sound choose accept g Hl (fun _ _ => True) (fun _ _ _ _ _ => I) _ _ _ _ Hg)
    as (n & q & rest & -> & Hln & Hex).
  pose proof (build_implies_validate ho _ _ _ Hb) as Hval. apply validate_spec in Hval. destruct Hval as [_ Hval].
  destruct (proj1 (expansion_derives _ _ Hval) _ _ Hex n eq_refl) as (tr & Hd & Hr & Hy).
  { exists q. split; [left; reflexivity|assumption]. }
  destruct (proj2 (opens_parser_ok ho _ p w (p_lhs q) Hb)) as [it Hit].
  assert (Ho : opens (q :: rest) (p_lhs q) w it) by (eapply opens_default; eauto; reflexivity).
  destruct (completeness _ _ _ _ tr Ho) as (ts & it' & Hp & Hin). { split; [assumption|]. split; congruence. }
  inversion Hp; subst; [destruct Hin|]. eauto 8.
Qed.

(** Sentences and derivations, when left-hand sides are distinct. *)
Lemma distinct_first g p n : distinct_lhs g -> In p g -> p_lhs p = Nonterminal n -> first_for g n p.
Proof.
  intros Hd Hp Hl. apply in_split in Hp. destruct Hp as (l1 & l2 & ->). exists l1, l2.
  repeat split; [assumption|]. intros q Hq E. unfold distinct_lhs in Hd. rewrite map_app in Hd. cbn in Hd.
  apply NoDup_remove_2 in Hd. apply Hd. apply in_or_app. left. rewrite Hl, <- E. apply in_map. assumption.
Qed.

Lemma derives_expansion g : distinct_lhs g ->
  forall tr, derives g tr -> forall n, root tr = Nonterminal n -> expansion g (fun _ _ => True) (Nonterminal n) (yield tr).
Proof.
  intros Hdl tr. induction tr as [l kids IH] using tree_ind'. intros Hd n Hn.
  inversion Hd as [p rhs kids' Hp Hr Hk E1]; subst. cbn [root] in Hn.
  assert (Hes : expansions g (fun _ _ => True) rhs (flat_map yield_node kids)).
  { clear Hd Hr. induction Hk as [|s r ks Hk IHk|m t r ks Hroot Ht Hk IHk].
    - constructor.
    - cbn. constructor; [constructor|]. apply IHk. intros; eapply IH; [right|..]; eassumption.
    - cbn. constructor; [|apply IHk; intros; eapply IH; [right|..]; eassumption].
      apply IH; [left; reflexivity|assumption|assumption]. }
  econstructor; [eapply distinct_first; eassumption|eassumption|exact Hes|exact I].
Qed.

(** ** Every expansion can be chosen by a random stream *)

(** A scripted random stream. *)
Definition script_draw (r : list nat) (n : nat) : nat * list nat :=
  match r with
  | i :: r => (if Nat.ltb i n then i else 0, r)
  | nil => (0, [])
  end.
Lemma script_draw_lt r n : 0 < n -> fst (script_draw r n) < n.
Proof. intro H. destruct r as [|i r]; cbn [script_draw fst]; [assumption|]. destruct (Nat.ltb_spec i n); lia. Qed.
Definition script_rng : rng_ops (list nat) :=
  mkRng _ script_draw (fun r n => (0%N, r)) script_draw_lt (fun r n H => H).

Lemma no_choice_false g n p e : no_lone_epsilon g -> first_for g n p -> In e (p_rhs p) -> production_has_no_choice p = false.
Proof.
  intros Hne Hf He. apply not_true_iff_false. rewrite no_choice_spec. intros [E|E].
  - rewrite E in He. destruct He.
  - apply first_for_In in Hf. exact (Hne p (proj1 Hf) E).
Qed.

Section Scripted.
  Variable g : grammar.
  Variable f : str -> str -> bool.
  Hypothesis Hne : no_lone_epsilon g.
  Notation run := (traverse (random_walk script_rng) (pure_callback f) g).
  Let eval (fuel depth : nat) := fun t (st : list nat) =>
    match t with
    | Nonterminal nt => run fuel nt st (depth + 1)
    | Terminal s => Ok (ROk s, st)
    end.

  Lemma scripted :
    (forall t w, expansion g (fun n w => f n w = true) t w ->
       exists script k, forall fuel depth rest, k <= fuel ->
         eval fuel depth t (script ++ rest) = Ok (ROk w, rest)) /\
    (forall e w, expansions g (fun n w => f n w = true) e w ->
       exists script k, forall fuel depth acc rest, k <= fuel ->
         eval_terms (eval fuel depth) e acc (script ++ rest) = Ok (ROk (acc ++ w), rest)).
  Proof.
    apply expansion_mutind.
    - intro s. exists [], 0. reflexivity.
    - intros n Hn. exists [], 1. intros [|fuel] depth rest Hf; [lia|]. unfold eval. cbn.
      destruct (find_production g n 0) as [[ix p]|] eqn:E; [|reflexivity].
      apply find_production_Some in E. exfalso. apply Hn. eapply first_for_has_lhs. apply E.
    - intros n p e w Hf He Hes (script & k & IH) Hk.
      pose proof (no_choice_false g n p e Hne Hf He) as Hnc.
      destruct (find_production_first _ _ _ Hf) as [ix Efp].
      apply In_nth_error in He. destruct He as [i Hi].
      exists (i :: script), (S k). intros [|fuel] depth rest Hle; [lia|]. unfold eval. cbn [traverse].
      rewrite Efp, Hnc. unfold random_walk, random_index. pose proof (nth_error_lt _ _ _ Hi) as Hlt.
      destruct (Nat.eqb_spec (length (p_rhs p)) 0) as [|_]; [lia|]. cbn [rbind draw_usize script_rng script_draw app].
      destruct (Nat.ltb_spec i (length (p_rhs p))) as [_|]; [|lia]. rewrite Hi.
      change (rbind (eval_terms (eval fuel (depth + 1)) e [] (script ++ rest))
        (fun '(r, st) => match r with
           | ROk s => let '(b, st1) := pure_callback f st n s in
                      if b then Ok (ROk s, st1) else run fuel n st1 (depth + 1)
           | RErr x => Ok (RErr x, st) end) = Ok (ROk w, rest)).
      rewrite (IH fuel (depth + 1) [] rest) by lia. cbn. rewrite Hk. reflexivity.
    - exists [], 0. intros. cbn. rewrite app_nil_r. reflexivity.
    - intros t e w1 w2 Ht (s1 & k1 & IH1) He (s2 & k2 & IH2).
      exists (s1 ++ s2), (max k1 k2). intros fuel depth acc rest Hle. cbn [eval_terms].
      rewrite <- app_assoc. rewrite IH1 by lia. cbn [rbind]. rewrite IH2 by lia. rewrite app_assoc. reflexivity.
  Qed.

  Lemma scripted_start n w : expansion g (fun n w => f n w = true) (Nonterminal n) w -> has_lhs g n ->
    exists script k, forall fuel, k <= fuel -> run fuel n script 0 = Ok (ROk w, []).
  Proof.
    intros Hex Hhas. inversion Hex as [|? Hn|? p e ? Hf He Hes Hk]; subst; [contradiction|].
    pose proof (no_choice_false g n p e Hne Hf He) as Hnc.
    destruct (find_production_first _ _ _ Hf) as [ix Efp].
    apply In_nth_error in He. destruct He as [i Hi].
    destruct (proj2 scripted _ _ Hes) as (script & k & IH).
    exists (i :: script), (S k). intros [|fuel] Hle; [lia|]. cbn [traverse].
    rewrite Efp, Hnc. unfold random_walk, random_index. pose proof (nth_error_lt _ _ _ Hi) as Hlt.
    destruct (Nat.eqb_spec (length (p_rhs p)) 0) as [|_]; [lia|]. cbn [rbind draw_usize script_rng script_draw].
    destruct (Nat.ltb_spec i (length (p_rhs p))) as [_|]; [|lia]. rewrite Hi.
    change (rbind (eval_terms (eval fuel 0) e [] script)
      (fun '(r, st) => match r with
         | ROk s => let '(b, st1) := pure_callback f st n s in
                    if b then Ok (ROk s, st1) else run fuel n st1 0
         | RErr x => Ok (RErr x, st) end) = Ok (ROk w, [])).
    rewrite <- (app_nil_r script). rewrite (IH fuel 0 [] []) by lia. cbn. rewrite Hk. reflexivity.
  Qed.
End Scripted.

(** Under the guard, generation reaches every expansion of the first rule. *)
Lemma generate_reaches g n p rest f w : g = p :: rest -> p_lhs p = Nonterminal n -> no_lone_epsilon g ->
  productive g (Nonterminal n) ->
  expansion g (fun n w => f n w = true) (Nonterminal n) w ->
  exists script k, forall fuel, k <= fuel -> generate_random script_rng f g fuel script = Ok (ROk w, []).
Proof.
  intros Eg Hl Hne Hprod Hex.
  assert (Hhas : has_lhs g n) by (exists p; rewrite Eg; split; [left; reflexivity|assumption]).
  destruct (scripted_start g f Hne n w Hex Hhas) as (script & k & H).
  exists script, (max k (S (length g))). intros fuel Hle. unfold generate_random, generate.
  destruct (terminates_ends fuel g) as [b Hb]; [lia|]. rewrite Hb. cbn [rbind].
  assert (b = true) as ->.
  { apply (terminates_spec _ _ _ Hb). rewrite Eg. unfold starting_term; cbn [option_map hd_error]. rewrite Hl, <- Eg. assumption. }
  cbn [negb]. assert (Hr := H fuel ltac:(lia)). rewrite Eg in Hr |- *. rewrite Hl. exact Hr.
Qed.

Lemma generates_productive g n w : generates g n w -> productive g (Nonterminal n).
Proof. intro H. apply generates_parses in H. destruct H as (t & H1 & H2 & _). exists t. auto. Qed.

Lemma every_sentence g n p rest w : g = p :: rest -> p_lhs p = Nonterminal n ->
  distinct_lhs g -> no_lone_epsilon g -> generates g n w ->
  exists script k, forall fuel, k <= fuel -> generate_random script_rng (fun _ _ => true) g fuel script = Ok (ROk w, []).
Proof.
  intros Eg Hl Hd Hne Hg. pose proof (generates_productive _ _ _ Hg) as Hprod.
  apply generates_parses in Hg. destruct Hg as (t & H1 & H2 & <-).
  eapply generate_reaches; [eassumption..|].
  eapply (proj1 (expansion_weaken g (fun _ _ => True) _ (fun _ _ _ => eq_refl))).
  apply derives_expansion; assumption.
Qed.

Lemma guard_safe g fuel0 p rest n : g = p :: rest -> p_lhs p = Nonterminal n ->
  distinct_lhs g -> no_lone_epsilon g -> terminates fuel0 g = Ok true ->
  exists script w k, forall fuel, k <= fuel -> generate_random script_rng (fun _ _ => true) g fuel script = Ok (ROk w, []).
Proof.
  intros Eg Hl Hd Hne Ht. pose proof (proj1 (terminates_spec _ _ _ Ht) eq_refl) as Hp.
  rewrite Eg in Hp. unfold starting_term in Hp; cbn [option_map hd_error] in Hp. rewrite Hl, <- Eg in Hp. destruct Hp as (t & Hdt & Hr).
  destruct (every_sentence g n p rest (yield t) Eg Hl Hd Hne) as (script & k & H).
  - apply generates_parses. exists t. split; [assumption|]. auto.
  - exists script, (yield t), k. exact H.
Qed.

(** ** Fuel never changes a result *)

Section Mono.
  Context {S : Type}.
  Variable choose : S -> nat -> production -> nat -> res (option expression * S).
  Variable accept : S -> str -> str -> bool * S.
  Variable g : grammar.

  Lemma eval_terms_mono (ev ev' : term -> S -> res (result str * S)) :
    (forall t st r, ev t st = Ok r -> ev' t st = Ok r) ->
    forall e acc st r, eval_terms ev e acc st = Ok r -> eval_terms ev' e acc st = Ok r.
  Proof.
    intro H. induction e as [|t e IH]; intros acc st r He; cbn [eval_terms] in *; [assumption|].
    destruct (ev t st) as [[[s|x] st1]| |] eqn:E; cbn [rbind] in He; try discriminate; rewrite (H _ _ _ E); cbn [rbind].
    - apply IH. assumption.
    - assumption.
  Qed.

  Lemma traverse_mono f : forall f' ident st depth r, traverse choose accept g f ident st depth = Ok r -> f <= f' ->
    traverse choose accept g f' ident st depth = Ok r.
  Proof.
    induction f as [|f IH]; intros f' ident st depth r H Hle; [discriminate|].
    destruct f' as [|f']; [lia|]. cbn [traverse] in *.
    destruct (find_production g ident 0) as [[ix p]|]; [|assumption].
    destruct (production_has_no_choice p); [assumption|].
    destruct (choose st ix p depth) as [[[e|] st1]| |]; cbn [rbind] in *; try assumption.
    match type of H with context [eval_terms ?ev e [] st1] => set (eval := ev) in * end.
    match goal with |- context [eval_terms ?ev e [] st1] => set (eval' := ev) end.
    destruct (eval_terms eval e [] st1) as [[[s|x] st2]| |] eqn:E; cbn [rbind] in H; try discriminate;
      apply (eval_terms_mono eval eval') in E;
      try (intros t st3 r3 H3; unfold eval in H3; unfold eval'; destruct t; [assumption|]; apply IH; [assumption|lia]);
      rewrite E; cbn [rbind].
    - destruct (accept st2 ident s) as [[|] st3]; [assumption|]. apply IH; [assumption|lia].
    - assumption.
  Qed.

  Lemma term_loop_mono f : forall f' start rules b, term_loop f start g rules = Ok b -> f <= f' ->
    term_loop f' start g rules = Ok b.
  Proof.
    induction f as [|f IH]; intros f' start rules b H Hle; [discriminate|]. destruct f' as [|f']; [lia|].
    cbn [term_loop] in *. destruct (term_pass start g rules false) as [[rules' [|]]|]; try assumption.
    apply IH; [assumption|lia].
  Qed.
  Lemma terminates_mono f f' b : terminates f g = Ok b -> f <= f' -> terminates f' g = Ok b.
  Proof.
    unfold terminates. destruct (starting_term g); [|auto]. destruct (term_init g); [auto|]. apply term_loop_mono.
  Qed.

  Lemma generate_mono f f' st r : generate choose accept g f st = Ok r -> f <= f' ->
    generate choose accept g f' st = Ok r.
  Proof.
    unfold generate. intros H Hle. destruct (terminates f g) as [b| |] eqn:E; cbn [rbind] in H; try discriminate.
    rewrite (terminates_mono _ _ _ E Hle). cbn [rbind]. destruct b; cbn [negb] in *; [|assumption].
    destruct g as [|p rest] eqn:Eg; [assumption|]. destruct (p_lhs p); [assumption|].
    rewrite <- Eg in *. eapply traverse_mono; eassumption.
  Qed.
End Mono.

Lemma generate_det {S} (choose : S -> nat -> production -> nat -> res (option expression * S)) accept g f f' st r r' :
  generate choose accept g f st = Ok r -> generate choose accept g f' st = Ok r' -> r = r'.
Proof.
  intros H H'. apply (generate_mono _ _ _ f (f + f')) in H; [|lia]. apply (generate_mono _ _ _ f' (f + f')) in H'; [|lia].
  congruence.
Qed.

(** ** Error messages *)

Lemma traverse_errors {S} (choose : S -> nat -> production -> nat -> res (option expression * S)) accept g fuel :
  forall ident st depth x st', traverse choose accept g fuel ident st depth = Ok (RErr x, st') ->
  x = GenerateError msg_no_alternative \/ x = GenerateError msg_no_selection.
Proof.
  induction fuel as [|fuel IH]; intros ident st depth x st' H; cbn [traverse] in H; [discriminate|].
  destruct (find_production g ident 0) as [[ix p]|]; [|discriminate].
  destruct (production_has_no_choice p); [injection H as <- <-; auto|].
  destruct (choose st ix p depth) as [[[e|] st1]| |]; cbn [rbind] in H; try discriminate;
    [|injection H as <- <-; auto].
  match type of H with context [eval_terms ?ev e [] st1] => set (eval := ev) in * end.
  assert (Hev : forall e acc st x st', eval_terms eval e acc st = Ok (RErr x, st') ->
    x = GenerateError msg_no_alternative \/ x = GenerateError msg_no_selection).
  { clear - IH. induction e as [|t e IHe]; intros acc st x st' H; cbn [eval_terms] in H; [discriminate|].
    destruct (eval t st) as [[[s|y] st1]| |] eqn:E; cbn [rbind] in H; try discriminate.
    - eapply IHe; exact H.
    - injection H as <- <-. unfold eval in E. destruct t; [discriminate|]. eapply IH; exact E. }
  destruct (eval_terms eval e [] st1) as [[[s|y] st2]| |] eqn:E; cbn [rbind] in H; try discriminate.
  - destruct (accept st2 ident s) as [[|] st3]; [discriminate|]. eapply IH; exact H.
  - injection H as <- <-. eapply Hev; exact E.
Qed.

Lemma guard_message {S} (choose : S -> nat -> production -> nat -> res (option expression * S)) accept g st :
  (exists fuel st', generate choose accept g fuel st = Ok (RErr (GenerateError msg_not_terminating), st')) <->
  exists start, starting_term g = Some start /\ ~ productive g start.
Proof.
  split.
  - intros (fuel & st' & H). unfold generate in H.
    destruct (terminates fuel g) as [b| |] eqn:E; cbn [rbind] in H; try discriminate.
    pose proof (terminates_spec _ _ _ E) as Hs. destruct b; cbn [negb] in H.
    + exfalso. destruct g as [|p rest]; [discriminate|].
      destruct (p_lhs p) as [s|n].
      * injection H as H _. revert H. unfold msg_terminal_lhs, msg_not_terminating. discriminate.
      * apply traverse_errors in H. destruct H as [H|H]; discriminate.
    + destruct (starting_term g) as [start|]; [|destruct Hs as [_ Hs]; discriminate (Hs I)].
      exists start. split; [reflexivity|]. intro Hp. apply Hs in Hp. discriminate.
  - intros (start & Hs & Hn). destruct (terminates_ends (Datatypes.S (length g)) g) as [b Hb]; [lia|].
    exists (Datatypes.S (length g)), st. unfold generate. rewrite Hb. cbn [rbind].
    destruct b; [|reflexivity]. exfalso. pose proof (terminates_spec _ _ _ Hb) as H. rewrite Hs in H. tauto.
Qed.

(** ** The callback, observed *)

(** The same strategy and callback, with a log of the calls of the callback that returned true. *)
Definition logged_choose {S} (choose : S -> nat -> production -> nat -> res (option expression * S))
    (sl : S * list (str * str)) addr p depth : res (option expression * (S * list (str * str))) :=
  let* (o, st) := choose (fst sl) addr p depth in Ok (o, (st, snd sl)).
Definition logged_accept {S} (accept : S -> str -> str -> bool * S) (sl : S * list (str * str)) n w
    : bool * (S * list (str * str)) :=
  let '(b, st) := accept (fst sl) n w in (b, (st, if b then (n, w) :: snd sl else snd sl)).

Section Logged.
  Context {S : Type}.
  Variable choose : S -> nat -> production -> nat -> res (option expression * S).
  Variable accept : S -> str -> str -> bool * S.
  Variable g : grammar.
  Hypothesis Hlaw : lawful choose.
  Let okl (log : list (str * str)) (n w : str) : Prop := In (n, w) log.

  Lemma okl_mono log log' : incl log log' ->
    (forall t w, expansion g (okl log) t w -> expansion g (okl log') t w) /\
    (forall e w, expansions g (okl log) e w -> expansions g (okl log') e w).
  Proof. intro H. apply expansion_weaken. intros n w. apply H. Qed.

  Lemma eval_terms_logged (ev : term -> S -> res (result str * S))
      (ev' : term -> S * list (str * str) -> res (result str * (S * list (str * str)))) :
    (forall t st log r st', ev t st = Ok (r, st') -> exists log', ev' t (st, log) = Ok (r, (st', log')) /\ incl log log' /\
       forall w, r = ROk w -> expansion g (okl log') t w) ->
    forall e acc st log r st', eval_terms ev e acc st = Ok (r, st') ->
    exists log', eval_terms ev' e acc (st, log) = Ok (r, (st', log')) /\ incl log log' /\
      forall w, r = ROk w -> exists w', w = acc ++ w' /\ expansions g (okl log') e w'.
  Proof.
    intro He. induction e as [|t e IH]; intros acc st log r st' H; cbn [eval_terms] in *.
    - injection H as <- <-. exists log. split; [reflexivity|]. split; [apply incl_refl|].
      intros w E. injection E as <-. exists []. rewrite app_nil_r. split; [reflexivity|constructor].
    - destruct (ev t st) as [[r1 st1]| |] eqn:E; cbn [rbind] in H; try discriminate.
      destruct (He _ _ log _ _ E) as (log1 & E' & Hi & Hw). rewrite E'. cbn [rbind]. destruct r1 as [s|x].
      + destruct (IH _ _ log1 _ _ H) as (log2 & E2 & Hi2 & Hw2). exists log2. split; [exact E2|].
        split; [eapply incl_tran; eassumption|]. intros w Ew. destruct (Hw2 w Ew) as (w' & -> & Hes).
        exists (s ++ w'). rewrite app_assoc. split; [reflexivity|]. constructor; [|assumption].
        apply (proj1 (okl_mono _ _ Hi2)). apply Hw. reflexivity.
      + injection H as <- <-. exists log1. split; [reflexivity|]. split; [assumption|discriminate].
  Qed.

  Lemma traverse_logged fuel : forall ident st depth log r st',
    traverse choose accept g fuel ident st depth = Ok (r, st') ->
    exists log', traverse (logged_choose choose) (logged_accept accept) g fuel ident (st, log) depth = Ok (r, (st', log')) /\
      incl log log' /\ forall w, r = ROk w -> expansion g (okl log') (Nonterminal ident) w.
  Proof.
    induction fuel as [|fuel IH]; intros ident st depth log r st' H; [discriminate|]. cbn [traverse] in *.
    destruct (find_production g ident 0) as [[ix p]|] eqn:Ef.
    2:{ injection H as <- <-. exists log. split; [reflexivity|]. split; [apply incl_refl|].
        intros w E. injection E as <-. constructor. eapply find_production_None; exact Ef. }
    destruct (production_has_no_choice p).
    { injection H as <- <-. exists log. split; [reflexivity|]. split; [apply incl_refl|discriminate]. }
    unfold logged_choose at 1. cbn [fst snd].
    destruct (choose st ix p depth) as [[o st1]| |] eqn:Ec; cbn [rbind] in H |- *; try discriminate.
    destruct o as [e|].
    2:{ injection H as <- <-. exists log. split; [reflexivity|]. split; [apply incl_refl|discriminate]. }
    match type of H with context [eval_terms ?ev e [] st1] => set (ev0 := ev) in * end.
    match goal with |- context [eval_terms ?ev e [] (st1, log)] => set (ev1 := ev) end.
    destruct (eval_terms ev0 e [] st1) as [[r1 st2]| |] eqn:Ee; cbn [rbind] in H; try discriminate.
    assert (Hev : forall t st log r st', ev0 t st = Ok (r, st') -> exists log', ev1 t (st, log) = Ok (r, (st', log')) /\ incl log log' /\
       forall w, r = ROk w -> expansion g (okl log') t w).
    { intros t st3 log3 r3 st4 H3. destruct t as [s|nt]; cbn in H3 |- *.
      - injection H3 as <- <-. exists log3. split; [reflexivity|]. split; [apply incl_refl|].
        intros w E. injection E as <-. constructor.
      - apply IH. exact H3. }
    destruct (eval_terms_logged ev0 ev1 Hev _ _ _ log _ _ Ee) as (log1 & E1 & Hi1 & Hw1). rewrite E1. cbn [rbind].
    destruct r1 as [s|x].
    2:{ injection H as <- <-. exists log1. split; [reflexivity|]. split; [assumption|discriminate]. }
    unfold logged_accept at 1. cbn [fst snd].
    destruct (accept st2 ident s) as [[|] st3] eqn:Ea.
    - injection H as <- <-. exists ((ident, s) :: log1). split; [reflexivity|].
      split; [intros x Hx; right; apply Hi1; assumption|]. intros w E. injection E as <-.
      destruct (Hw1 s eq_refl) as (w' & Ew & Hes). cbn in Ew. subst w'.
      apply find_production_Some in Ef. apply (ex_rule _ _ _ p e); [apply Ef|eapply Hlaw; exact Ec| |left; reflexivity].
      apply (proj2 (okl_mono log1 ((ident, s) :: log1) (fun x Hx => or_intror Hx))). assumption.
    - destruct (IH ident st3 depth log1 _ _ H) as (log2 & E2 & Hi2 & Hw2). exists log2. split; [exact E2|].
      split; [eapply incl_tran; eassumption|assumption].
  Qed.

  Lemma generate_logged fuel st w st' : generate choose accept g fuel st = Ok (ROk w, st') ->
    exists n p rest log, g = p :: rest /\ p_lhs p = Nonterminal n /\
      generate (logged_choose choose) (logged_accept accept) g fuel (st, []) = Ok (ROk w, (st', log)) /\
      expansion g (fun n' w' => In (n', w') log) (Nonterminal n) w.
  Proof.
    unfold generate. destruct (terminates fuel g) as [[|]| |]; cbn [rbind negb]; try discriminate.
    destruct g as [|p rest] eqn:Eg; [discriminate|]. destruct (p_lhs p) as [s|n] eqn:El; [discriminate|].
    intro H. rewrite <- Eg in *. destruct (traverse_logged fuel n st 0 [] _ _ H) as (log & E & _ & Hw).
    exists n, p, rest, log. split; [exact Eg|]. split; [assumption|]. split; [exact E|]. apply Hw. reflexivity.
  Qed.
End Logged.
