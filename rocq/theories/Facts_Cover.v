(** The last steps to C81. *)
From Verif Require Export CoverProofs ParseExamples.
From Coq Require Import Lia Permutation.

Lemma C81_choices_proof : forall R (rng : rng_ops R) f g fuel k r0 rs c',
  generate_times (coverage_guided rng) (pure_callback f) g fuel k (mkCov [] r0) = Ok (rs, c') -> exists evs,
    generate_times (traced_choose (coverage_guided rng)) (traced_accept (pure_callback f)) g fuel k (mkCov [] r0, []) = Ok (rs, (c', rev evs)) /\
    forall n p, first_for g n p -> p_rhs p <> [] -> exists rest,
      Permutation (firstn (length (p_rhs p)) (chosen_from p evs) ++ rest) (p_rhs p) /\
      (length (p_rhs p) <= length (chosen_from p evs) -> rest = []).
Proof.
  intros R rng f g fuel k r0 rs c' H. destruct (coverage_times rng g f fuel k r0 rs c' H) as (evss & E & _ & _ & Hp).
  exists (concat evss). auto.
Qed.

Lemma chosen_from_In p evs e : In e (chosen_from p evs) <-> exists d, In (Chose p d (Some e)) evs.
Proof.
  unfold chosen_from. rewrite in_flat_map. split.
  - intros ([q d [e'|]|n w b] & Hin & He); cbn in He; try contradiction.
    destruct (production_eq_dec q p) as [->|]; [|contradiction]. destruct He as [->|[]]. eauto.
  - intros [d Hin]. exists (Chose p d (Some e)). split; [assumption|]. cbn. destruct (production_eq_dec p p); [left; reflexivity|congruence].
Qed.

Lemma C81_unavoidable_proof : forall R (rng : rng_ops R) f g fuel k r0 rs c' p rest n m q,
  g = p :: rest -> p_lhs p = Nonterminal n -> unavoidable g m n -> first_for g m q -> p_rhs q <> [] ->
  generate_times (coverage_guided rng) (pure_callback f) g fuel k (mkCov [] r0) = Ok (rs, c') ->
  (forall r, In r rs -> exists w, r = ROk w) -> length (p_rhs q) <= k ->
  exists evs, generate_times (traced_choose (coverage_guided rng)) (traced_accept (pure_callback f)) g fuel k (mkCov [] r0, []) =
      Ok (rs, (c', rev evs)) /\
    forall e, In e (p_rhs q) -> exists d, In (Chose q d (Some e)) evs.
Proof.
  intros R rng f g fuel k r0 rs c' p rest n m q Eg Hl Hun Hq Hne H Hok Hk.
  destruct (coverage_times rng g f fuel k r0 rs c' H) as (evss & E & Hev & Hlen & Hp).
  exists (concat evss). split; [exact E|].
  assert (Hlaw : forall q d e, In (Chose q d (Some e)) (concat evss) -> In e (p_rhs q)).
  { assert (Hinv : forall q d e, In (Chose q d (Some e)) (snd (c', rev (concat evss))) -> In e (p_rhs q)).
    { eapply (generate_times_inv (traced_choose (coverage_guided rng)) (traced_accept (pure_callback f)) g
        (fun sl => forall q d e, In (Chose q d (Some e)) (snd sl) -> In e (p_rhs q))); [| | |exact E].
      - intros n0 ix p0 [c log] d o [c2 log2] _ HP Hc q0 d0 e0 Hin. unfold traced_choose in Hc. cbn [fst snd] in *.
        destruct (coverage_guided rng c ix p0 d) as [[o' c3]| |] eqn:Ec; cbn [rbind] in Hc; try discriminate.
        injection Hc as <- <- <-. destruct Hin as [Hin|Hin]; [|eapply HP; exact Hin].
        injection Hin as -> -> ->. eapply (lawful_coverage_guided rng); exact Ec.
      - intros [c log] n0 w b [c2 log2] HP Ha q0 d0 e0 Hin. unfold traced_accept, pure_callback in Ha. cbn [fst snd] in *.
        injection Ha as <- <- <-. destruct Hin as [Hin|Hin]; [discriminate|]. eapply HP; exact Hin.
      - intros q0 d e []. }
    cbn [snd] in Hinv. intros q0 d e Hin. apply (Hinv q0 d). apply -> in_rev. exact Hin. }
  assert (Hcount : length rs <= length (chosen_from q (concat evss))).
  { clear H E Hp Hlen Hk. induction Hev as [|evs r evss' rs' Hr Hev IH]; [cbn; lia|].
    cbn [concat length]. unfold chosen_from in *. rewrite flat_map_app, app_length.
    assert (IH' : length rs' <= length (chosen_from q (concat evss'))).
    { apply IH; [intros; apply Hok; right; assumption|]. intros q0 d e Hin. apply (Hlaw q0 d). cbn. apply in_or_app. right. exact Hin. }
    unfold chosen_from in IH'.
    destruct (Hok r (or_introl eq_refl)) as [w ->]. destruct Hr as [[_ [x Hx]]|(n' & p' & rest' & Eg' & Hl' & Hd)]; [discriminate|].
    assert (p' = p /\ n' = n) as [-> ->].
    { rewrite Eg in Eg'. injection Eg' as -> ->. split; [reflexivity|congruence]. }
    destruct (proj1 (unavoidable_chosen g m q Hq) _ _ _ _ Hd w eq_refl) as (d & e & Hin).
    + intros q0 d e Hin. apply (Hlaw q0 d). cbn. apply in_or_app. left. exact Hin.
    + exact Hun.
    + assert (He : In e (chosen_from q evs)) by (apply chosen_from_In; eauto). unfold chosen_from in He.
      match goal with |- S _ <= length ?x + _ => destruct x; [destruct He|cbn; lia] end. }
  destruct (Hp m q Hq Hne) as (rst & Hperm & Hrest). rewrite Hrest in Hperm by lia. rewrite app_nil_r in Hperm.
  intros e He. apply chosen_from_In. eapply Permutation_in in He; [|symmetry; exact Hperm].
  eapply firstn_In; exact He.
Qed.

(** ** A rule of terminals only *)

Section Flat.
  Context {R : Type} (rng : rng_ops R).
  Variables (g rest : grammar) (p : production) (n : str).
  Hypothesis Eg : g = p :: rest.
  Hypothesis Hl : p_lhs p = Nonterminal n.
  Hypothesis Hch : choosable p.
  Hypothesis Hflat : forall e, In e (p_rhs p) -> forall m, ~ In (Nonterminal m) e.

  Lemma eval_flat {S} (ev : term -> S -> res (result str * S)) (e : expression) :
    (forall s st, ev (Terminal s) st = Ok (ROk s, st)) -> (forall m, ~ In (Nonterminal m) e) ->
    forall acc st, eval_terms ev e acc st = Ok (ROk (acc ++ flat_text e), st).
  Proof.
    intros Hev. induction e as [|[s|m] e IH]; intros He acc st; cbn [eval_terms].
    - cbn. rewrite app_nil_r. reflexivity.
    - rewrite Hev. cbn [rbind]. rewrite IH by (intros m Hm; apply (He m); right; exact Hm). cbn. rewrite app_assoc. reflexivity.
    - exfalso. apply (He m). left. reflexivity.
  Qed.

  Lemma flat_times fuel k : forall c, terminates fuel g = Ok true -> 0 < fuel ->
    exists es c', length es = k /\ coverage_run rng c (repeat (0, p, 0) k) = Ok (map Some es, c') /\
      generate_times (coverage_guided rng) (pure_callback (fun _ _ => true)) g fuel k c = Ok (map (fun e => ROk (flat_text e)) es, c').
  Proof.
    intros c Ht Hf. revert c. induction k as [|k IH]; intro c.
    - exists [], c. repeat split; reflexivity.
    - assert (Hg : exists e c1, coverage_guided rng c 0 p 0 = Ok (Some e, c1) /\ In e (p_rhs p)).
      { destruct (coverage_index_ok rng c 0 p (proj1 Hch)) as (i & c1 & E1 & Hi & _). unfold coverage_guided. rewrite E1. cbn [rbind].
        destruct (nth_error (p_rhs p) i) as [e|] eqn:En; [|apply nth_error_None in En; lia]. exists e, c1. split; [reflexivity|].
        eapply nth_error_In; exact En. }
      destruct Hg as (e & c1 & E1 & He). destruct (IH c1) as (es & c' & El & E2 & E3). exists (e :: es), c'. split; [cbn; congruence|].
      cbn [repeat coverage_run generate_times map]. rewrite E1. cbn [rbind]. rewrite E2. cbn [rbind]. split; [reflexivity|].
      assert (Eone : generate (coverage_guided rng) (pure_callback (fun _ _ => true)) g fuel c = Ok (ROk (flat_text e), c1)).
      { unfold generate. rewrite Ht. cbn [rbind negb]. rewrite Eg at 1. rewrite Hl. destruct fuel as [|fu]; [lia|]. cbn [traverse].
        assert (Hfind : find_production g n 0 = Some (0, p)).
        { rewrite Eg. cbn [find_production]. rewrite Hl, term_eqb_refl. reflexivity. }
        rewrite Hfind. apply choosable_spec in Hch. rewrite Hch. rewrite E1. cbn [rbind].
        rewrite eval_flat; [|reflexivity|apply Hflat, He]. reflexivity. }
      rewrite Eone. cbn [rbind]. rewrite E3. reflexivity.
  Qed.
End Flat.

Lemma answers_for_repeat p k : forall es : list (option expression), length es = k -> answers_for 0 (repeat (0, p, 0) k) es = es.
Proof. induction k as [|k IH]; intros [|e es] H; try discriminate; [reflexivity|]. cbn. injection H as H. rewrite IH by assumption. reflexivity. Qed.

Lemma C81_flat_proof : forall g p rest n, g = p :: rest -> p_lhs p = Nonterminal n -> choosable p ->
  (forall e, In e (p_rhs p) -> forall m, ~ In (Nonterminal m) e) ->
  exists fuel0, forall R (rng : rng_ops R) fuel r0, fuel0 <= fuel -> exists ws c',
    generate_times (coverage_guided rng) (pure_callback (fun _ _ => true)) g fuel (length (p_rhs p)) (mkCov [] r0) = Ok (map ROk ws, c') /\
    Permutation ws (map flat_text (p_rhs p)).
Proof.
  intros g p rest n Eg Hl Hch Hflat.
  assert (Ht : exists fuel0, terminates fuel0 g = Ok true /\ 0 < fuel0).
  { destruct (terminates_ends (S (length g)) g ltac:(lia)) as [v Ht]. exists (S (length g)). split; [|lia]. rewrite Ht. f_equal.
    apply (terminates_spec _ _ _ Ht). unfold starting_term. rewrite Eg. apply term_init_productive. apply term_init_spec.
    exists p. split; [left; reflexivity|]. split; [reflexivity|]. apply has_term_none.
    destruct (p_rhs p) as [|e es] eqn:Er; [destruct Hch as [Hne _]; contradiction|].
    exists e. split; [left; reflexivity|]. intros m Hm. exact (Hflat e (or_introl eq_refl) m Hm). }
  destruct Ht as (fuel0 & Ht & Hpos). exists fuel0. intros R rng fuel r0 Hle.
  assert (Ht' : terminates fuel g = Ok true) by (eapply terminates_mono; [exact Ht|exact Hle]).
  destruct (flat_times rng g rest p n Eg Hl Hch Hflat fuel (length (p_rhs p)) (mkCov [] r0) Ht' ltac:(lia)) as (es & c' & Hlen & E1 & E2).
  exists (map flat_text es), c'. split; [rewrite map_map; exact E2|].
  apply Permutation_map.
  assert (Hsame : forall addr q d, In (addr, q, d) (repeat (0, p, 0) (length (p_rhs p))) -> addr = 0 -> q = p).
  { intros addr q d Hin _. apply repeat_spec in Hin. injection Hin as _ -> _. reflexivity. }
  destruct (coverage_permutation rng 0 p (mkCov [] r0) _ _ _ (proj1 Hch) Hsame ltac:(intros i []) E1) as (rst & Hperm & Hrest).
  rewrite answers_for_repeat in Hperm, Hrest by (rewrite map_length; exact Hlen).
  rewrite map_length in Hrest. rewrite Hrest in Hperm by lia. rewrite app_nil_r, <- Hlen, <- (map_length Some es), firstn_all in Hperm.
  apply Permutation_map_inv in Hperm. destruct Hperm as (l3 & E3 & Hp3).
  assert (Hinj : forall x y : list expression, map Some x = map Some y -> x = y).
  { induction x as [|a0 x IH]; intros [|b0 y] Hxy; cbn in Hxy; try discriminate; [reflexivity|]. injection Hxy as -> Hxy. f_equal. auto. }
  apply Hinj in E3. rewrite E3. symmetry. exact Hp3.
Qed.

(** ** The documented claim *)

(** [<s> ::= <b> | <a>], [<a> ::= 'x' | 'y'], [<b> ::= 'z']. *)
Definition detour_s := mkProd (N_ "s") [ [N_ "b"]; [N_ "a"] ].
Definition detour_a := mkProd (N_ "a") [ [T_ "x"]; [T_ "y"] ].
Definition detour_b := mkProd (N_ "b") [ [T_ "z"] ].
Definition detour_grammar : grammar := [detour_s; detour_a; detour_b].

(** Both alternatives of [<s>] are seen, and ['y'] is not. *)
Definition detoured (c : @coverage unit) : Prop :=
  memb seen_eqb (0, 0) (c_seen c) = true /\ memb seen_eqb (0, 1) (c_seen c) = true /\ memb seen_eqb (1, 1) (c_seen c) = false.

Lemma detour_choose_s c d : detoured c ->
  coverage_guided (const_rng 0) c 0 detour_s d = Ok (Some [N_ "b"], mkCov ((0, 0) :: c_seen c) (c_rng c)).
Proof.
  intros (H1 & H2 & H3). unfold coverage_guided, coverage_index. change (length (p_rhs detour_s)) with 2. cbn [seq filter].
  rewrite H1, H2. destruct c as [seen []]. reflexivity.
Qed.

Lemma detour_choose_b c d :
  coverage_guided (const_rng 0) c 2 detour_b d = Ok (Some [T_ "z"], mkCov ((2, 0) :: c_seen c) (c_rng c)).
Proof.
  unfold coverage_guided, coverage_index. change (length (p_rhs detour_b)) with 1. cbn [seq filter].
  destruct c as [seen []]. destruct (memb _ _ _); reflexivity.
Qed.

Lemma detour_terminates fuel b : terminates fuel detour_grammar = Ok b -> 1 <= fuel.
Proof. destruct fuel; [discriminate|lia]. Qed.

Lemma detour_run fuel c r c' : detoured c ->
  generate (coverage_guided (const_rng 0)) (pure_callback (fun _ _ => true)) detour_grammar fuel c = Ok (r, c') ->
  r = ROk (lit "z") /\ detoured c'.
Proof.
  intros Hc H. assert (Ht : exists b, terminates fuel detour_grammar = Ok b).
  { unfold generate in H. destruct (terminates fuel detour_grammar) as [b| |]; try discriminate. eauto. }
  destruct Ht as [b Ht]. unfold generate in H. rewrite Ht in H. 
  assert (Hb : b = true).
  { pose proof (terminates_mono _ _ (fuel + 9) _ Ht ltac:(lia)) as Hm. rewrite Nat.add_comm in Hm. vm_compute in Hm. congruence. }
  subst b. cbn [rbind negb] in H. change (p_lhs (hd detour_s detour_grammar)) with (N_ "s") in H.
  cbn [detour_grammar detour_s p_lhs N_] in H. fold detour_s in H. fold detour_grammar in H.
  destruct fuel as [|fuel]; [discriminate|]. cbn [traverse] in H.
  change (find_production detour_grammar (lit "s") 0) with (Some (0, detour_s)) in H. cbv iota in H.
  change (production_has_no_choice detour_s) with false in H. cbv iota in H.
  rewrite (detour_choose_s c 0 Hc) in H. cbn [rbind eval_terms N_] in H.
  destruct fuel as [|fuel]; [discriminate|]. cbn [traverse] in H.
  change (find_production detour_grammar (lit "b") 0) with (Some (2, detour_b)) in H. cbv iota in H.
  change (production_has_no_choice detour_b) with false in H. cbv iota in H.
  rewrite detour_choose_b in H. cbn [rbind eval_terms T_ pure_callback app c_seen c_rng] in H.
  injection H as <- <-. split; [reflexivity|]. destruct Hc as (H1 & H2 & H3). split; [|split]; [reflexivity|exact H2|exact H3].
Qed.

Lemma detour_times fuel k : forall c rs c', detoured c ->
  generate_times (coverage_guided (const_rng 0)) (pure_callback (fun _ _ => true)) detour_grammar fuel k c = Ok (rs, c') ->
  rs = repeat (ROk (lit "z")) k.
Proof.
  induction k as [|k IH]; intros c rs c' Hc H; cbn [generate_times] in H.
  - injection H as <- _. reflexivity.
  - destruct (generate _ _ _ _ _) as [[r c1]| |] eqn:E1; cbn [rbind] in H; try discriminate.
    destruct (detour_run _ _ _ _ Hc E1) as [-> Hc1].
    destruct (generate_times _ _ _ _ _ _) as [[rs1 c2]| |] eqn:E2; cbn [rbind] in H; try discriminate.
    injection H as <- _. cbn. f_equal. eapply IH; eassumption.
Qed.

Lemma detour_total fuel : 9 <= fuel -> forall k c, detoured c -> exists c',
  generate_times (coverage_guided (const_rng 0)) (pure_callback (fun _ _ => true)) detour_grammar fuel k c = Ok (repeat (ROk (lit "z")) k, c').
Proof.
  intros Hf. induction k as [|k IH]; intros c Hc; [exists c; reflexivity|].
  assert (Hg : exists r c1, generate (coverage_guided (const_rng 0)) (pure_callback (fun _ _ => true)) detour_grammar fuel c = Ok (r, c1)).
  { do 9 (destruct fuel as [|fuel]; [lia|]). clear Hf IH. unfold generate.
    change (terminates _ detour_grammar) with (@Ok bool true). cbn [rbind negb detour_grammar detour_s p_lhs N_]. fold detour_s. fold detour_grammar.
    cbn [traverse]. change (find_production detour_grammar (lit "s") 0) with (Some (0, detour_s)). cbv iota.
    change (production_has_no_choice detour_s) with false. cbv iota.
    rewrite (detour_choose_s c 0 Hc). cbn [rbind eval_terms N_ traverse].
    change (find_production detour_grammar (lit "b") 0) with (Some (2, detour_b)). cbv iota.
    change (production_has_no_choice detour_b) with false. cbv iota.
    rewrite detour_choose_b. eexists _, _. reflexivity. }
  destruct Hg as (r & c1 & Eg). destruct (detour_run _ _ _ _ Hc Eg) as [-> Hc1]. destruct (IH c1 Hc1) as [c2 E2].
  exists c2. cbn [generate_times repeat]. rewrite Eg. cbn [rbind]. rewrite E2. reflexivity.
Qed.

Lemma detour_step fuel k c r c1 rs c2 :
  generate (coverage_guided (const_rng 0)) (pure_callback (fun _ _ => true)) detour_grammar fuel c = Ok (r, c1) ->
  generate_times (coverage_guided (const_rng 0)) (pure_callback (fun _ _ => true)) detour_grammar fuel k c1 = Ok (rs, c2) ->
  generate_times (coverage_guided (const_rng 0)) (pure_callback (fun _ _ => true)) detour_grammar fuel (S k) c = Ok (r :: rs, c2).
Proof. intros E1 E2. cbn [generate_times]. rewrite E1. cbn [rbind]. rewrite E2. reflexivity. Qed.

Lemma C81_explores_refuted_proof : exists g, generates g (lit "s") (lit "y") /\
  forall fuel k, 9 <= fuel -> exists rs c',
    generate_times (coverage_guided (const_rng 0)) (pure_callback (fun _ _ => true)) g fuel k (mkCov [] tt) = Ok (rs, c') /\
    ~ In (ROk (lit "y")) rs.
Proof.
  exists detour_grammar. split.
  - exists [lit "y"]. split; [|reflexivity].
    eapply rewrites_step; [apply (rewrite_at detour_grammar [] (lit "s") [] detour_s [N_ "a"]); cbn; auto|].
    eapply rewrites_step; [apply (rewrite_at detour_grammar [] (lit "a") [] detour_a [T_ "y"]); cbn; auto|].
    apply rewrites_refl.
  - intros fuel k Hf.
    assert (E1 : generate (coverage_guided (const_rng 0)) (pure_callback (fun _ _ => true)) detour_grammar fuel (mkCov [] tt) =
      Ok (ROk (lit "z"), mkCov [(2, 0); (0, 0)] tt)) by (do 9 (destruct fuel as [|fuel]; [lia|]); reflexivity).
    assert (E2 : generate (coverage_guided (const_rng 0)) (pure_callback (fun _ _ => true)) detour_grammar fuel (mkCov [(2, 0); (0, 0)] tt) =
      Ok (ROk (lit "x"), mkCov [(1, 0); (0, 1); (2, 0); (0, 0)] tt)) by (do 9 (destruct fuel as [|fuel]; [lia|]); reflexivity).
    assert (Hno : forall k, ~ In (ROk (lit "y")) (repeat (ROk (lit "z")) k)) by (intros k0 Hin; apply repeat_spec in Hin; discriminate).
    destruct k as [|[|k]].
    + eexists _, _. split; [reflexivity|]. intros [].
    + eexists _, _. split; [eapply detour_step; [exact E1|reflexivity]|]. intros [Hx|[]]. discriminate.
    + destruct (detour_total fuel Hf k (mkCov [(1, 0); (0, 1); (2, 0); (0, 0)] tt)) as [c' E3]; [repeat split|].
      eexists _, _. split; [eapply detour_step; [exact E1|eapply detour_step; [exact E2|exact E3]]|].
      intros [Hx|[Hx|Hx]]; [discriminate|discriminate|exact (Hno k Hx)].
Qed.

(** ** Example data: <s> ::= <d> | '-' <d>, <d> ::= '1' | '2' | '3' *)

Definition digits_grammar : grammar :=
  [ mkProd (N_ "s") [[N_ "d"]; [T_ "-"; N_ "d"]]; mkProd (N_ "d") [[T_ "1"]; [T_ "2"]; [T_ "3"]] ].

Lemma digits_unavoidable : unavoidable digits_grammar (lit "d") (lit "s").
Proof.
  apply (un_rule _ _ _ (mkProd (N_ "s") [[N_ "d"]; [T_ "-"; N_ "d"]]) (fun _ => lit "d")).
  - exists [], [mkProd (N_ "d") [[T_ "1"]; [T_ "2"]; [T_ "3"]]]. repeat split. intros r [].
  - intros e [<-|[<-|[]]]; cbn; auto.
  - intros e _. apply un_self.
Qed.
