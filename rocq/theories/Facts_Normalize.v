(** Proofs of the theorems of Properties_Normalize.v that are not instances of a single lemma. *)
From Verif Require Import TextExamples NormalizeClosed.
From Coq Require String.
Import String.StringSyntax.

Lemma C37_same_language_proof : forall pg g n w, normalize_parsed_grammar pg = Ok g ->
  no_capture pg -> no_empty_group pg -> In n (map pp_lhs pg) ->
  (generates g n w <-> means pg (Simple (Nonterminal n)) w).
Proof. intros pg g n w H H1 H2 H3. symmetry. exact (normalize_language pg g n w H H1 H2 H3). Qed.

Lemma C37_text_language_proof : forall alphabetic N pg s g n w, alphabetic_ok alphabetic ->
  grammar_text alphabetic N pg s -> grammar_from_str alphabetic s = Ok (ROk g) ->
  no_capture pg -> In n (map pp_lhs pg) ->
  (generates g n w <-> means pg (Simple (Nonterminal n)) w).
Proof.
  intros al N pg s g n w H Ht Hg Hc Hn. apply (grammar_from_str_exact al H) in Hg. destruct Hg as (N' & pg' & Ht' & Hg).
  destruct (grammar_text_unique al H _ _ _ _ _ Ht Ht') as [<- <-]. apply C37_same_language_proof; auto.
  eapply proper_no_empty_group, grammar_text_proper. exact Ht.
Qed.

Lemma C37_text_to_parses_proof : forall alphabetic N pg s g n input it, alphabetic_ok alphabetic ->
  grammar_text alphabetic N pg s -> grammar_from_str alphabetic s = Ok (ROk g) ->
  no_capture pg -> In n (map pp_lhs pg) -> opens g (Nonterminal n) input it ->
  ((exists fuel t it', iter_next fuel it = Ok (Some t, it')) <-> means pg (Simple (Nonterminal n)) input).
Proof.
  intros al N pg s g n input it H Ht Hg Hc Hn Ho.
  rewrite <- (C37_text_language_proof al N pg s g n input H Ht Hg Hc Hn). apply recognition. assumption.
Qed.

Lemma bnf_no_capture : no_capture bnf_parsed.
Proof.
  intros n (p & e & t & Hp & He & Ht & Ho). left. cbn.
  destruct Hp as [<-|[<-|[]]]; cbn in He.
  - destruct He as [<-|[<-|[]]]; cbn in Ht; decompose [or] Ht; subst; try contradiction; inversion Ho; subst; auto.
  - destruct He as [<-|[]]. destruct Ht as [<-|[<-|[]]]; [|inversion Ho].
    inversion Ho as [|es e t He Ht Ho'|]; subst. destruct He as [<-|[<-|[]]]; cbn in Ht.
    + destruct Ht as [<-|[]]. inversion Ho'.
    + destruct Ht as [<-|[<-|[]]]; [inversion Ho'; subst; auto|].
      inversion Ho' as [| |es e t He Ht Ho'']; subst. destruct He as [<-|[]]. destruct Ht as [<-|[]]. inversion Ho''.
Qed.

Lemma bnf_no_empty_group : no_empty_group bnf_parsed.
Proof. eapply proper_no_empty_group, grammar_text_proper. exact bnf_text_parsed. Qed.

Lemma C38_names_fresh_proof : forall pg g, normalize_parsed_grammar pg = Ok g ->
  exists user anon, g = user ++ anon /\ length user = length pg /\ NoDup (map p_lhs anon) /\
    forall q, In q anon -> exists k, p_lhs q = Nonterminal (anon_name k) /\ ~ In (anon_name k) (map pp_lhs pg) /\
      forall i, i < k -> In (anon_name i) (map pp_lhs pg) \/ In (Nonterminal (anon_name i)) (map p_lhs anon).
Proof.
  intros pg g H. destruct (normalize_spec pg g H) as (user & anon & E & H1 & _ & H2 & H3 & _).
  exists user, anon. split; [assumption|]. split; [symmetry; eapply Forall2_length; exact H1|]. auto.
Qed.

Definition capture_text : str := lit "<a> ::= ('x') | 'y' <__anon0>".

Definition capture_parsed : parsed_grammar :=
  [mkParsed (lit "a") [[Group [[Simple (Terminal (lit "x"))]]];
                       [Simple (Terminal (lit "y")); Simple (Nonterminal (lit "__anon0"))]]].

Lemma C38_reference_capture_refuted_proof : forall alphabetic, exists s pg g w,
  parsed_grammar_complete alphabetic BNF s = Ok (Some pg) /\ grammar_from_str alphabetic s = Ok (ROk g) /\
  generates g (lit "a") w /\ ~ means pg (Simple (Nonterminal (lit "a"))) w.
Proof.
  intro al. exists capture_text, capture_parsed.
  exists [mkProd (Nonterminal (lit "a")) [[Nonterminal (lit "__anon0")]; [Terminal (lit "y"); Nonterminal (lit "__anon0")]];
          mkProd (Nonterminal (lit "__anon0")) [[Terminal (lit "x")]]], (lit "yx").
  split; [vm_compute; reflexivity|]. split; [vm_compute; reflexivity|]. split.
  - apply gens_generates. eapply gens_rule; [left; reflexivity|reflexivity|right; left; reflexivity|].
    apply (gens_cons _ _ _ (lit "y") (lit "x")); [constructor|].
    apply (gens_cons _ _ _ (lit "x") []); [|constructor].
    eapply gens_rule; [right; left; reflexivity|reflexivity|left; reflexivity|].
    apply (gens_cons _ _ _ (lit "x") []); constructor.
  - intro M. inversion M as [|n p e w Hp En He Hw| | |]; subst. destruct Hp as [<-|[]]. destruct He as [<-|[<-|[]]].
    + inversion Hw as [|t e w w' Mt Me E1 E2]; subst. inversion Me; subst. rewrite app_nil_r in E2.
      inversion Mt as [| |es e w0 Hin Hm| |]; subst. destruct Hin as [<-|[]]. inversion Hm as [|t e w1 w2 M1 M2 E3 E4]; subst.
      inversion M1; subst. inversion M2; subst. discriminate.
    + inversion Hw as [|t e w w' Mt Me E1 E2]; subst. inversion Me as [|t e w1 w2 M1 M2]; subst.
      inversion M1 as [|n p e w3 Hp' En'| | |]; subst. destruct Hp' as [<-|[]]. discriminate.
Qed.

Lemma C39_structure_proof : forall pg g, normalize_parsed_grammar pg = Ok g ->
  exists user anon, g = user ++ anon /\ Forall2 (lowered_production anon) pg user /\
    length anon = count_all pg /\
    forall q, In q anon -> exists t, occurs_in t pg /\ group_rule anon t (p_rhs q).
Proof.
  intros pg g H. destruct (normalize_spec pg g H) as (user & anon & E & H1 & H2 & _ & _ & H3). exists user, anon. auto.
Qed.

Lemma C39_names_and_counts_proof : forall pg g, normalize_parsed_grammar pg = Ok g ->
  length g = length pg + count_all pg /\
  map p_lhs (firstn (length pg) g) = map (fun p => Nonterminal (pp_lhs p)) pg /\
  map (fun p => map (@length term) (p_rhs p)) (firstn (length pg) g) =
  map (fun p => map (@length parsed_term) (pp_rhs p)) pg.
Proof.
  intros pg g H. destruct (normalize_spec pg g H) as (user & anon & -> & H1 & H2 & _).
  pose proof (Forall2_length _ _ _ H1) as Hl. rewrite app_length, <- H2, <- Hl. split; [reflexivity|].
  rewrite Hl, firstn_app, Nat.sub_diag, firstn_O, app_nil_r, firstn_all. clear H H2 Hl.
  induction H1 as [|p q pg user [E Ha] _ IH]; [split; reflexivity|]. destruct IH as [IH1 IH2]. cbn [map].
  rewrite IH1, IH2, E. split; [reflexivity|]. f_equal. clear - Ha. induction Ha as [|e es e' es' He _ IH]; [reflexivity|].
  cbn [map]. rewrite IH. f_equal. clear - He. induction He as [|t e t' e' _ _ IH]; [reflexivity|]. cbn. rewrite IH. reflexivity.
Qed.

Lemma C39_starting_rule_proof : forall pg g, normalize_parsed_grammar pg = Ok g -> pg <> [] ->
  starting_term g = option_map (fun p => Nonterminal (pp_lhs p)) (hd_error pg).
Proof.
  intros pg g H Hne. destruct (normalize_spec pg g H) as (user & anon & -> & H1 & _).
  destruct H1 as [|p q pg user [E _] _]; [contradiction|]. unfold starting_term. cbn. rewrite E. reflexivity.
Qed.

