(** Normalization meets its specification. *)
From Verif Require Export TextTotal NormalizeSpec EarleyMain.
From Coq Require String.
Import String.StringSyntax.

Lemma lowered_terms_Forall2 A e e' : lowered_terms A e e' <-> Forall2 (lowered A) e e'.
Proof. split; induction 1; constructor; auto. Qed.
Lemma lowered_alts_Forall2 A es es' : lowered_alts A es es' <-> Forall2 (lowered_terms A) es es'.
Proof. split; induction 1; constructor; auto. Qed.

Lemma Forall2_impl {A B} (R R' : A -> B -> Prop) l l' : (forall a b, R a b -> R' a b) -> Forall2 R l l' -> Forall2 R' l l'.
Proof. intro H. induction 1; constructor; auto. Qed.

Lemma Forall2_length {A B} (R : A -> B -> Prop) l l' : Forall2 R l l' -> length l = length l'.
Proof. induction 1; cbn; congruence. Qed.

(** ** The state *)

Definition names (ps : list production) : list term := map p_lhs ps.

(** From [st] to [st'], the productions [ps] with fresh names were added. *)
Record extends (st st' : lstate) (ps : list production) : Prop := {
  ex_anon : l_anon st' = l_anon st ++ ps;
  ex_used : forall x, In x (l_used st') <-> In x (l_used st) \/ In (Nonterminal x) (names ps);
  ex_distinct : NoDup (names ps);
  ex_fresh : forall x, In (Nonterminal x) (names ps) -> ~ In x (l_used st);
  ex_names : forall t, In t (names ps) -> exists k, t = Nonterminal (anon_name k);
  ex_dense : (forall i, i < l_counter st -> In (anon_name i) (l_used st)) ->
             forall i, i < l_counter st' -> In (anon_name i) (l_used st');
  ex_counter : forall k, In (Nonterminal (anon_name k)) (names ps) -> k < l_counter st'
                                                                  /\ l_counter st <= k;
  ex_mono : l_counter st <= l_counter st'
}.

Lemma extends_refl st : extends st st [].
Proof.
  constructor; cbn; try tauto.
  - symmetry. apply app_nil_r.
  - constructor.
  - lia.
Qed.

Lemma NoDup_app_intro {A} (l l' : list A) : NoDup l -> NoDup l' -> (forall x, In x l -> ~ In x l') -> NoDup (l ++ l').
Proof.
  induction 1 as [|x l H1 H2 IH]; intros H3 H4; [assumption|]. cbn. constructor.
  - rewrite in_app_iff. intros [H|H]; [contradiction|]. apply (H4 x); [left; reflexivity|assumption].
  - apply IH; [assumption|]. intros y Hy. apply H4. right. assumption.
Qed.

Lemma extends_trans st1 st2 st3 ps ps' : extends st1 st2 ps -> extends st2 st3 ps' -> extends st1 st3 (ps ++ ps').
Proof.
  intros [A1 A2 A3 A4 A5 A6 A7 A8] [B1 B2 B3 B4 B5 B6 B7 B8]. unfold names in *.
  constructor; unfold names; rewrite ?map_app.
  - rewrite B1, A1, app_assoc. reflexivity.
  - intro x. rewrite B2, A2, in_app_iff. tauto.
  - apply NoDup_app_intro; auto. intros t H1 H2. destruct (B5 t H2) as [k ->]. apply (B4 _ H2). apply A2. auto.
  - intros x H. rewrite in_app_iff in H. destruct H as [H|H]; [auto|]. intro H'. apply (B4 _ H). apply A2. auto.
  - intros t H. rewrite in_app_iff in H. destruct H; auto.
  - auto.
  - intros k H. rewrite in_app_iff in H. destruct H as [H|H]; [apply A7 in H|apply B7 in H]; lia.
  - lia.
Qed.

(** Allocating a name, working under it, and adding its production. *)
Lemma extends_group st j st' ps rhs : l_counter st <= j -> ~ In (anon_name j) (l_used st) ->
  (forall i, l_counter st <= i -> i < j -> In (anon_name i) (l_used st)) ->
  extends (mkL (anon_name j :: l_used st) (S j) (l_anon st)) st' ps ->
  extends st (push_anon (mkProd (Nonterminal (anon_name j)) rhs) st') (ps ++ [mkProd (Nonterminal (anon_name j)) rhs]).
Proof.
  intros Hj Hn Hd [A1 A2 A3 A4 A5 A6 A7 A8]. unfold names in *. cbn [l_used l_anon l_counter] in *.
  constructor; unfold names; rewrite ?map_app; cbn [push_anon l_used l_anon l_counter map p_lhs].
  - rewrite A1, app_assoc. reflexivity.
  - intro x. rewrite A2, in_app_iff. cbn [In]. split.
    + intros [[<-|H]|H]; auto.
    + intros [H|[H|[H|[]]]]; auto. injection H as <-. auto.
  - apply NoDup_app_intro; auto; [repeat constructor; intros []|].
    intros t H1 [<-|[]]. apply (A4 _ H1). left; reflexivity.
  - intros x H. rewrite in_app_iff in H. destruct H as [H|[H|[]]].
    + intro H'. apply (A4 _ H). right; assumption.
    + injection H as <-. assumption.
  - intros t H. rewrite in_app_iff in H. destruct H as [H|[<-|[]]]; eauto.
  - intros H i Hi. apply A6; [|assumption]. intros i' Hi'. cbn [In].
    destruct (Nat.eq_dec i' j) as [->|]; [left; reflexivity|]. right.
    destruct (Nat.lt_ge_cases i' (l_counter st)); [apply H; assumption|apply Hd; lia].
  - intros k H. rewrite in_app_iff in H. destruct H as [H|[H|[]]].
    + apply A7 in H. lia.
    + injection H as H. apply dec_inj in H. subst. lia.
  - lia.
Qed.

Lemma fresh_anon_name_dense used : forall fuel k n u c, fresh_anon_name fuel used k = Ok (n, u, c) ->
  exists j, k <= j /\ ~ In (anon_name j) used /\ (forall i, k <= i -> i < j -> In (anon_name i) used) /\
    n = anon_name j /\ u = anon_name j :: used /\ c = S j.
Proof.
  induction fuel as [|fuel IH]; intros k n u c H; [discriminate|]. cbn [fresh_anon_name] in H.
  destruct (str_memb (lit "__anon" ++ dec k) used) eqn:E.
  - apply IH in H. destruct H as (j & H1 & H2 & H3 & H4). exists j. split; [lia|]. split; [assumption|]. split; [|assumption].
    intros i Hi Hij. destruct (Nat.eq_dec i k) as [->|]; [apply str_memb_In; assumption|apply H3; lia].
  - injection H as <- <- <-. exists k. split; [lia|]. split; [|split; [intros; lia|auto]].
    intro H. apply str_memb_In in H. unfold anon_name in H. congruence.
Qed.
Lemma fresh_dense st : exists j, l_counter st <= j /\ ~ In (anon_name j) (l_used st) /\
  (forall i, l_counter st <= i -> i < j -> In (anon_name i) (l_used st)) /\
  fresh st = Ok (anon_name j, mkL (anon_name j :: l_used st) (S j) (l_anon st)).
Proof.
  destruct (fresh_spec st) as (j0 & _ & _ & E0). unfold fresh in E0. unfold fresh.
  destruct (fresh_anon_name _ _ _) as [[[n u] c]| |] eqn:E; cbn in E0; try discriminate.
  apply fresh_anon_name_dense in E. destruct E as (j & H1 & H2 & H3 & -> & -> & ->).
  exists j. auto.
Qed.

(** ** Lowering *)

Definition steps {A B} (f : A -> lstate -> res (B * lstate)) (count : A -> nat) (occ : parsed_term -> A -> Prop)
    (R : list production -> A -> B -> Prop) (x : A) : Prop :=
  forall st, exists y st' ps, f x st = Ok (y, st') /\ extends st st' ps /\ length ps = count x /\
    forall anon, incl ps anon -> R anon x y /\
      forall q, In q ps -> exists t, occ t x /\ group_rule anon t (p_rhs q).

Definition occ_list {A} (occ : parsed_term -> A -> Prop) (t : parsed_term) (l : list A) : Prop :=
  exists x, In x l /\ occ t x.

Lemma map_st_steps {A B} (f : A -> lstate -> res (B * lstate)) count occ R l :
  (forall x, In x l -> steps f count occ R x) ->
  steps (map_st f) (fun l => list_sum (map count l)) (occ_list occ) (fun anon => Forall2 (R anon)) l.
Proof.
  induction l as [|x l IH]; intros H st.
  - exists [], st, []. split; [reflexivity|]. split; [apply extends_refl|]. split; [reflexivity|].
    intros anon _. split; [constructor|intros q []].
  - rewrite map_st_cons. destruct (H x (or_introl eq_refl) st) as (y & st1 & ps1 & -> & X1 & L1 & R1).
    destruct (IH (fun y Hy => H y (or_intror Hy)) st1) as (ys & st2 & ps2 & E & X2 & L2 & R2).
    cbn [rbind]. rewrite E. cbn [rbind]. exists (y :: ys), st2, (ps1 ++ ps2). split; [reflexivity|].
    split; [eapply extends_trans; eassumption|]. split; [cbn; rewrite app_length, L1, L2; reflexivity|].
    intros anon Hi. destruct (R1 anon) as [R1a R1b]; [intros z Hz; apply Hi, in_or_app; auto|].
    destruct (R2 anon) as [R2a R2b]; [intros z Hz; apply Hi, in_or_app; auto|].
    split; [constructor; assumption|]. intros q Hq. apply in_app_iff in Hq. destruct Hq as [Hq|Hq].
    + destruct (R1b q Hq) as (t & Ht & Hg). exists t. split; [|assumption]. exists x. split; [left; reflexivity|assumption].
    + destruct (R2b q Hq) as (t & (z & Hz & Ht) & Hg). exists t. split; [|assumption]. exists z. split; [right; assumption|assumption].
Qed.

Lemma lowered_lists anon es rhs : Forall2 (Forall2 (lowered anon)) es rhs -> lowered_alts anon es rhs.
Proof. intro H. apply lowered_alts_Forall2. eapply Forall2_impl; [|exact H]. intros a b. apply lowered_terms_Forall2. Qed.

Lemma lower_term_steps t : steps lower_term count_groups occurs lowered t.
Proof.
  induction t as [t|es IH|es IH] using parsed_term_ind'; intro st.
  - exists t, st, []. split; [reflexivity|]. split; [apply extends_refl|]. split; [reflexivity|].
    intros anon _. split; [constructor|intros q []].
  - cbn [lower_term]. destruct (fresh_dense st) as (j & H1 & H2 & H3 & ->). cbn [rbind].
    destruct (map_st_steps (map_st lower_term) _ _ _ es (fun e He => map_st_steps lower_term _ _ _ e (IH e He))
      (mkL (anon_name j :: l_used st) (S j) (l_anon st))) as (rhs & st' & ps & -> & X & L & R). cbn [rbind].
    set (rhs' := match rhs with [] => [[Terminal []]] | _ => rhs end).
    eexists _, _, (ps ++ [mkProd (Nonterminal (anon_name j)) rhs']). split; [reflexivity|].
    split; [apply extends_group; assumption|]. split; [rewrite app_length, L; cbn; lia|].
    intros anon Hi. destruct (R anon (fun x Hx => Hi x (in_or_app _ _ _ (or_introl Hx)))) as [Ra Rb].
    apply lowered_lists in Ra.
    assert (Hin : In (mkProd (Nonterminal (anon_name j)) rhs') anon) by (apply Hi, in_or_app; right; left; reflexivity).
    assert (Hg : group_rule anon (Group es) rhs').
    { destruct es as [|e es]; [right; inversion Ra; subst; auto|].
      left. split; [discriminate|]. destruct rhs; [inversion Ra|]. exact Ra. }
    split.
    + destruct Hg as [[He Ha]|[-> E]]; [econstructor; eassumption|]. rewrite E in Hin. constructor. assumption.
    + intros q Hq. apply in_app_iff in Hq. destruct Hq as [Hq|[<-|[]]].
      * destruct (Rb q Hq) as (t & (e & He & u & Hu & Ho) & Hr). exists t. split; [|assumption].
        eapply occurs_group; eassumption.
      * exists (Group es). split; [constructor|exact Hg].
  - cbn [lower_term]. destruct (fresh_dense st) as (j & H1 & H2 & H3 & ->). cbn [rbind].
    destruct (map_st_steps (map_st lower_term) _ _ _ es (fun e He => map_st_steps lower_term _ _ _ e (IH e He))
      (mkL (anon_name j :: l_used st) (S j) (l_anon st))) as (rhs & st' & ps & -> & X & L & R). cbn [rbind].
    eexists _, _, (ps ++ [mkProd (Nonterminal (anon_name j)) (rhs ++ [[Terminal []]])]). split; [reflexivity|].
    split; [apply extends_group; assumption|]. split; [rewrite app_length, L; cbn; lia|].
    intros anon Hi. destruct (R anon (fun x Hx => Hi x (in_or_app _ _ _ (or_introl Hx)))) as [Ra Rb].
    apply lowered_lists in Ra. split.
    + apply (lowered_optional anon es _ rhs); [assumption|]. apply Hi, in_or_app; right; left; reflexivity.
    + intros q Hq. apply in_app_iff in Hq. destruct Hq as [Hq|[<-|[]]].
      * destruct (Rb q Hq) as (t & (e & He & u & Hu & Ho) & Hr). exists t. split; [|assumption].
        eapply occurs_optional; eassumption.
      * exists (Optional es). split; [constructor|]. exists rhs. auto.
Qed.

Definition occ_production (t : parsed_term) (p : parsed_production) : Prop :=
  exists e u, In e (pp_rhs p) /\ In u e /\ occurs t u.

Lemma lower_production_steps p :
  steps lower_production (fun p => list_sum (map (fun e => list_sum (map count_groups e)) (pp_rhs p))) occ_production
    lowered_production p.
Proof.
  intro st. unfold lower_production.
  destruct (map_st_steps lower_expression _ _ _ (pp_rhs p)
    (fun e _ => map_st_steps lower_term _ _ _ e (fun t _ => lower_term_steps t)) st) as (rhs & st' & ps & -> & X & L & R).
  cbn [rbind]. eexists _, _, ps. split; [reflexivity|]. split; [assumption|]. split; [assumption|].
  intros anon Hi. destruct (R anon Hi) as [Ra Rb]. split; [split; [reflexivity|]; apply lowered_lists; assumption|].
  intros q Hq. destruct (Rb q Hq) as (t & (e & He & u & Hu & Ho) & Hr). exists t. split; [|assumption]. exists e, u. auto.
Qed.

Theorem normalize_spec pg g : normalize_parsed_grammar pg = Ok g ->
  exists user anon, g = user ++ anon /\ Forall2 (lowered_production anon) pg user /\ length anon = count_all pg /\
    NoDup (names anon) /\
    (forall q, In q anon -> exists k, p_lhs q = Nonterminal (anon_name k) /\ ~ In (anon_name k) (map pp_lhs pg) /\
       forall i, i < k -> In (anon_name i) (map pp_lhs pg) \/ In (Nonterminal (anon_name i)) (names anon)) /\
    (forall q, In q anon -> exists t, occurs_in t pg /\ group_rule anon t (p_rhs q)).
Proof.
  unfold normalize_parsed_grammar.
  destruct (map_st_steps lower_production _ _ _ pg (fun p _ => lower_production_steps p) (mkL (map pp_lhs pg) 0 []))
    as (user & st & anon & -> & X & L & R). cbn [rbind]. intro H; injection H as <-.
  destruct X as [A1 A2 A3 A4 A5 A6 A7 A8]. cbn [l_used l_anon l_counter app] in *.
  destruct (R anon (incl_refl _)) as [Ra Rb].
  exists user, anon. rewrite A1. split; [reflexivity|]. split; [exact Ra|]. split; [exact L|]. split; [exact A3|]. split.
  - intros q Hq. pose proof (in_map p_lhs _ _ Hq) as Hq'. destruct (A5 _ Hq') as [k Ek]. exists k. split; [assumption|].
    unfold names in *. rewrite Ek in Hq'. split; [apply A4; assumption|].
    intros i Hi. apply A2. apply A6; [intros i' Hi'; lia|]. apply A7 in Hq'. lia.
  - intros q Hq. destruct (Rb q Hq) as (t & (p & Hp & e & u & He & Hu & Ho) & Hr). exists t. split; [|assumption].
    exists p, e, u. auto.
Qed.

(** ** Meaning *)

(** Big-step derivations of plain grammars. *)
Inductive gens (g : grammar) : term -> str -> Prop :=
| gens_terminal s : gens g (Terminal s) s
| gens_rule n p e w : In p g -> p_lhs p = Nonterminal n -> In e (p_rhs p) -> gens_terms g e w -> gens g (Nonterminal n) w
with gens_terms (g : grammar) : expression -> str -> Prop :=
| gens_nil : gens_terms g [] []
| gens_cons t e w w' : gens g t w -> gens_terms g e w' -> gens_terms g (t :: e) (w ++ w').
Scheme gens_mind := Induction for gens Sort Prop
  with gens_terms_mind := Induction for gens_terms Sort Prop.
Combined Scheme gens_mutind from gens_mind, gens_terms_mind.
Scheme derives_mind := Induction for derives Sort Prop
  with kids_match_mind := Induction for kids_match Sort Prop.
Combined Scheme derives_mutind from derives_mind, kids_match_mind.

Lemma gens_generates g n w : gens g (Nonterminal n) w <-> generates g n w.
Proof.
  rewrite generates_parses. split.
  - assert (H : (forall t w, gens g t w -> match t with Terminal _ => True | Nonterminal n => exists t', parses g (Nonterminal n) w t' end) /\
                (forall e w, gens_terms g e w -> exists ks, kids_match g e ks /\ flat_map yield_node ks = w)).
    { clear n w. apply gens_mutind.
      - exact (fun _ => I).
      - intros n p e w Hp En He _ (ks & Hk & <-). exists (Node (Nonterminal n) ks). split; [|split; reflexivity].
        rewrite <- En. econstructor; eassumption.
      - exists []. split; [constructor|reflexivity].
      - intros [s|n] e w w' H IH _ (ks & Hk & <-).
        + exists (Leaf s :: ks). split; [constructor; assumption|]. inversion H. reflexivity.
        + destruct IH as (t & H1 & H2 & <-). exists (Sub t :: ks). split; [constructor; assumption|]. reflexivity. }
    intro Hg. exact (proj1 H _ _ Hg).
  - intros (t & H1 & H2 & <-).
    assert (H : (forall t, derives g t -> forall n, root t = Nonterminal n -> gens g (Nonterminal n) (yield t)) /\
                (forall e ks, kids_match g e ks -> gens_terms g e (flat_map yield_node ks))).
    { clear. apply derives_mutind.
      - intros p rhs kids Hp Hr _ IH n E. econstructor; eassumption.
      - constructor.
      - intros s r ks _ IH. cbn. constructor; [constructor|assumption].
      - intros n t r ks Er _ IH1 _ IH2. cbn. constructor; auto. }
    apply (proj1 H); assumption.
Qed.

Lemma lowered_alts_In anon es es' e : lowered_alts anon es es' -> In e es -> exists e', In e' es' /\ lowered_terms anon e e'.
Proof.
  induction 1; cbn; [intros []|]. intros [->|Hin]; [eauto|]. destruct IHlowered_alts as (x & H1 & H2); eauto.
Qed.
Lemma lowered_alts_In_inv anon es es' e' : lowered_alts anon es es' -> In e' es' -> exists e, In e es /\ lowered_terms anon e e'.
Proof.
  induction 1; cbn; [intros []|]. intros [->|Hin]; [eauto|]. destruct IHlowered_alts as (x & H1 & H2); eauto.
Qed.
Lemma Forall2_In {A B} (R : A -> B -> Prop) l l' x : Forall2 R l l' -> In x l -> exists y, In y l' /\ R x y.
Proof. induction 1; cbn; [intros []|]. intros [->|Hin]; [eauto|]. destruct IHForall2 as (z & H1 & H2); eauto. Qed.
Lemma Forall2_In_inv {A B} (R : A -> B -> Prop) l l' y : Forall2 R l l' -> In y l' -> exists x, In x l /\ R x y.
Proof. induction 1; cbn; [intros []|]. intros [->|Hin]; [eauto|]. destruct IHForall2 as (z & H1 & H2); eauto. Qed.

Section Meaning.
Variable pg : parsed_grammar.
Variables user anon : list production.
Hypothesis Huser : Forall2 (lowered_production anon) pg user.

Lemma means_gens :
  (forall t w, means pg t w -> forall t', lowered anon t t' -> gens (user ++ anon) t' w) /\
  (forall e w, means_terms pg e w -> forall e', lowered_terms anon e e' -> gens_terms (user ++ anon) e' w).
Proof.
  apply means_mutind.
  - intros s t' H. inversion H; subst. constructor.
  - intros n p e w Hp En He _ IH t' H. inversion H; subst.
    destruct (Forall2_In _ _ _ _ Huser Hp) as (q & Hq & E & Ha).
    destruct (lowered_alts_In _ _ _ _ Ha He) as (e' & He' & Hl).
    econstructor; [apply in_or_app; left; eassumption|assumption|eassumption|]. apply IH. assumption.
  - intros es e w He _ IH t' H. inversion H as [|es' n rhs Hne Ha Hin|n Hin|]; subst; [|destruct He].
    destruct (lowered_alts_In _ _ _ _ Ha He) as (e' & He' & Hl).
    eapply gens_rule; [apply in_or_app; right; eassumption|reflexivity|eassumption|]. apply IH. assumption.
  - intros es t' H. inversion H as [| | |es' n rhs Ha Hin]; subst.
    eapply gens_rule; [apply in_or_app; right; eassumption|reflexivity|apply in_or_app; right; left; reflexivity|].
    apply (gens_cons _ _ _ [] []); constructor.
  - intros es e w He _ IH t' H. inversion H as [| | |es' n rhs Ha Hin]; subst.
    destruct (lowered_alts_In _ _ _ _ Ha He) as (e' & He' & Hl).
    eapply gens_rule; [apply in_or_app; right; eassumption|reflexivity|apply in_or_app; left; eassumption|]. apply IH. assumption.
  - intros e' H. inversion H; subst. constructor.
  - intros t e w w' _ IH1 _ IH2 e' H. inversion H; subst. constructor; auto.
Qed.

Hypothesis Hdistinct : NoDup (names anon).
Hypothesis Hfresh : forall q, In q anon -> exists k, p_lhs q = Nonterminal (anon_name k) /\ ~ In (anon_name k) (map pp_lhs pg).
Hypothesis Hcapture : no_capture pg.
Hypothesis Hempty : no_empty_group pg.

Definition inside (t : parsed_term) : Prop := occurs_in t pg.
Lemma inside_trans t t' : inside t -> occurs t' t -> inside t'.
Proof.
  intros (p & e & u & H1 & H2 & H3 & H4) H. exists p, e, u. split; [assumption|]. split; [assumption|]. split; [assumption|].
  clear H1 H2 H3. induction H4 as [|es e' t0 A B C IH|es e' t0 A B C IH]; [assumption|eapply occurs_group; eassumption|eapply occurs_optional; eassumption].
Qed.

Lemma owned p q : In p (user ++ anon) -> In q anon -> p_lhs p = p_lhs q -> p = q.
Proof.
  intros Hp Hq E. apply in_app_iff in Hp. destruct Hp as [Hp|Hp].
  - destruct (Forall2_In_inv _ _ _ _ Huser Hp) as (x & Hx & Ex & _). destruct (Hfresh q Hq) as (k & Ek & Hk).
    exfalso. apply Hk. rewrite E, Ek in Ex. injection Ex as ->. apply in_map. assumption.
  - clear - Hdistinct Hp Hq E. induction anon as [|a l IH]; [destruct Hp|]. cbn in Hdistinct. inversion Hdistinct; subst.
    destruct Hp as [->|Hp], Hq as [->|Hq]; auto.
    + exfalso. apply H1. rewrite E. apply in_map. assumption.
    + exfalso. apply H1. rewrite <- E. apply in_map. assumption.
Qed.

Lemma gens_means :
  (forall t' w, gens (user ++ anon) t' w -> forall t, lowered anon t t' -> inside t -> means pg t w) /\
  (forall e' w, gens_terms (user ++ anon) e' w -> forall e, lowered_terms anon e e' -> (forall t, In t e -> inside t) -> means_terms pg e w).
Proof.
  apply gens_mutind.
  - intros s t H Hi. inversion H; subst. constructor.
  - intros n p e' w Hp En He' Hw IH t H Hi. inversion H as [|es n' rhs Hne Ha Hin|n' Hin|es n' rhs Ha Hin]; subst.
    + apply in_app_iff in Hp. destruct Hp as [Hp|Hp].
      * destruct (Forall2_In_inv _ _ _ _ Huser Hp) as (x & Hx & Ex & Ha). rewrite En in Ex. injection Ex as ->.
        destruct (lowered_alts_In_inv _ _ _ _ Ha He') as (e & He & Hl).
        econstructor; [exact Hx|reflexivity|exact He|]. apply IH; [assumption|].
        intros t Ht. exists x, e, t. repeat split; auto. constructor.
      * exfalso. destruct (Hfresh p Hp) as (k & Ek & Hk). rewrite En in Ek. injection Ek as ->.
        destruct (Hcapture _ Hi) as [H'|H']; [contradiction|]. apply (H' k). reflexivity.
    + pose proof (owned p _ Hp Hin En). subst p.
      destruct (lowered_alts_In_inv _ _ _ _ Ha He') as (e & He & Hl).
      econstructor; [exact He|]. apply IH; [assumption|]. intros t Ht. eapply inside_trans; [exact Hi|].
      eapply occurs_group; [exact He|exact Ht|constructor].
    + exfalso. apply Hempty. exact Hi.
    + pose proof (owned p _ Hp Hin En). subst p. cbn [p_rhs] in He'. apply in_app_iff in He'. destruct He' as [He'|[<-|[]]].
      * destruct (lowered_alts_In_inv _ _ _ _ Ha He') as (e & He & Hl).
        eapply means_optional; [exact He|]. apply IH; [assumption|]. intros t Ht. eapply inside_trans; [exact Hi|].
        eapply occurs_optional; [exact He|exact Ht|constructor].
      * assert (w = []) as ->; [|constructor].
        inversion Hw as [|t e w1 w2 H1 H2]; subst. inversion H1; inversion H2; subst. reflexivity.
  - intros e H Hi. inversion H; subst. constructor.
  - intros t' e' w w' _ IH1 _ IH2 e H Hi. inversion H; subst. constructor; [apply IH1|apply IH2]; auto.
    + apply Hi. left; reflexivity.
    + intros t0 Ht. apply Hi. right; assumption.
Qed.

Lemma same_language n w : In n (map pp_lhs pg) -> (means pg (Simple (Nonterminal n)) w <-> generates (user ++ anon) n w).
Proof.
  intro Hn. rewrite <- gens_generates. split.
  - intro H. apply (proj1 means_gens _ _ H). constructor.
  - intro H. inversion H as [|n' p e' w' Hp En He' Hw]; subst. apply in_app_iff in Hp. destruct Hp as [Hp|Hp].
    + destruct (Forall2_In_inv _ _ _ _ Huser Hp) as (x & Hx & Ex & Ha). rewrite En in Ex. injection Ex as ->.
      destruct (lowered_alts_In_inv _ _ _ _ Ha He') as (e & He & Hl).
      econstructor; [exact Hx|reflexivity|exact He|]. apply (proj2 gens_means _ _ Hw); [assumption|].
      intros t Ht. exists x, e, t. repeat split; auto. constructor.
    + exfalso. destruct (Hfresh p Hp) as (k & Ek & Hk). rewrite En in Ek. injection Ek as ->. contradiction.
Qed.
End Meaning.

Theorem normalize_language pg g n w : normalize_parsed_grammar pg = Ok g -> no_capture pg -> no_empty_group pg ->
  In n (map pp_lhs pg) -> (means pg (Simple (Nonterminal n)) w <-> generates g n w).
Proof.
  intros H Hc He Hn. destruct (normalize_spec pg g H) as (user & anon & -> & H1 & _ & H2 & H3 & _).
  apply same_language; auto. intros q Hq. destruct (H3 q Hq) as (k & A & B & _). eauto.
Qed.

(** Without [no_capture], nothing is lost. *)
Theorem normalize_language_incl pg g n w : normalize_parsed_grammar pg = Ok g ->
  means pg (Simple (Nonterminal n)) w -> generates g n w.
Proof.
  intros H Hm. destruct (normalize_spec pg g H) as (user & anon & -> & H1 & _ & H2 & H3 & _).
  apply gens_generates. apply (proj1 (means_gens pg user anon H1) _ _ Hm). constructor.
Qed.

(** ** Grammars without groups *)

Lemma lower_simple e st : map_st lower_term (map Simple e) st = Ok (e, st).
Proof. induction e as [|t e IH]; [reflexivity|]. cbn [map]. rewrite map_st_cons. cbn [lower_term rbind]. rewrite IH. reflexivity. Qed.
Lemma lower_simples es st : map_st lower_expression (map (map Simple) es) st = Ok (es, st).
Proof.
  induction es as [|e es IH]; [reflexivity|]. cbn [map]. rewrite map_st_cons. unfold lower_expression at 1. rewrite lower_simple.
  cbn [rbind]. rewrite IH. reflexivity.
Qed.
Lemma lower_plain g pg st : Forall2 (fun p p' => plain p = Some p') g pg -> map_st lower_production pg st = Ok (g, st).
Proof.
  induction 1 as [|p p' g pg H _ IH]; [reflexivity|]. rewrite map_st_cons. destruct p as [[s|n] rhs]; [discriminate|].
  injection H as <-. unfold lower_production at 1. cbn [pp_rhs pp_lhs]. rewrite lower_simples. cbn [rbind]. rewrite IH. reflexivity.
Qed.
Theorem normalize_plain g pg : Forall2 (fun p p' => plain p = Some p') g pg -> normalize_parsed_grammar pg = Ok g.
Proof. intro H. unfold normalize_parsed_grammar. rewrite (lower_plain _ _ _ H). cbn. rewrite app_nil_r. reflexivity. Qed.
