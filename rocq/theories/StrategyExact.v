(** The choices of the strategies as functions of one draw, the exact language of DepthBounded,
    and runs without errors. *)
From Verif Require Export StrategyProofs.

(** ** One draw among the candidates *)

(** Alternatives that DepthBounded may take: all of them below the depth limit; from the limit
    on those without nonterminals, or all if there is none. *)
Definition depth_candidate (max depth : nat) (p : production) (i : nat) : Prop :=
  exists e, nth_error (p_rhs p) i = Some e /\
    (depth < max \/ (forall n, ~ In (Nonterminal n) e) \/
     (forall e', In e' (p_rhs p) -> exists n, In (Nonterminal n) e')).

(** Alternatives that CoverageGuided may take: those not used yet, or all if all were used. *)
Definition coverage_candidate (seen : list (nat * nat)) (addr : nat) (p : production) (i : nat) : Prop :=
  i < length (p_rhs p) /\
  (~ In (addr, i) seen \/ (forall j, j < length (p_rhs p) -> In (addr, j) seen)).

Lemma indices_where_NoDup {A} (f : nat -> A -> bool) (l : list A) : forall i0, NoDup (indices_where f i0 l).
Proof.
  induction l as [|a l IH]; intro i0; cbn [indices_where]; [constructor|].
  destruct (f i0 a); [|apply IH]. constructor; [|apply IH]. intro H. apply indices_where_spec in H.
  destruct H as (x & H & _). lia.
Qed.

Section OneDraw.
  Context {R : Type} (rng : rng_ops R).

  Lemma random_walk_one_draw r addr p depth : p_rhs p <> [] ->
    random_walk rng r addr p depth =
      let '(i, r') := draw_usize rng r (length (p_rhs p)) in Ok (nth_error (p_rhs p) i, r').
  Proof.
    intro H. apply rhs_length in H. unfold random_walk, random_index.
    destruct (Nat.eqb_spec (length (p_rhs p)) 0); [lia|]. cbn [rbind].
    destruct (draw_usize rng r (length (p_rhs p))) as [i r']. reflexivity.
  Qed.

  Lemma pick_from_one_draw r buf n : buf <> [] -> 
    pick_from rng r buf n = let '(k, r') := draw_usize rng r (length buf) in Ok (nth k buf 0, r').
  Proof.
    intro H. unfold pick_from. destruct buf as [|b buf]; [congruence|]. unfold random_index.
    change (Nat.eqb (length (b :: buf)) 0) with false. cbv iota. cbn [rbind].
    pose proof (draw_usize_lt _ rng r (length (b :: buf)) ltac:(cbn; lia)) as Hlt.
    destruct (draw_usize rng r (length (b :: buf))) as [k r']. cbn [fst] in Hlt.
    rewrite (nth_error_nth' (b :: buf) 0 Hlt). reflexivity.
  Qed.

  (** The buffer, or all indices if it is empty. *)
  Lemma pick_from_total r buf n : 0 < n ->
    let el := match buf with nil => seq 0 n | _ => buf end in
    pick_from rng r buf n = let '(k, r') := draw_usize rng r (length el) in Ok (nth k el 0, r').
  Proof.
    intros Hn el. destruct buf as [|b buf]; [|apply pick_from_one_draw; discriminate].
    unfold pick_from, random_index. destruct (Nat.eqb_spec n 0); [lia|]. unfold el. rewrite seq_length.
    pose proof (draw_usize_lt _ rng r n Hn) as Hlt. destruct (draw_usize rng r n) as [k r'].
    cbn [fst] in Hlt. rewrite seq_nth by assumption. reflexivity.
  Qed.
End OneDraw.

Lemma exists_all_terminals p : 
  (exists i, In i (indices_where (fun _ e => expression_all_terminals e) 0 (p_rhs p))) \/
  (indices_where (fun _ e => expression_all_terminals e) 0 (p_rhs p) = [] /\
   forall e, In e (p_rhs p) -> exists n, In (Nonterminal n) e).
Proof.
  destruct (indices_where _ 0 (p_rhs p)) as [|i l] eqn:E; [right|left; exists i; left; reflexivity].
  split; [reflexivity|]. intros e He. destruct (expression_all_terminals e) eqn:Ea.
  - exfalso. apply In_nth_error in He. destruct He as [j Hj].
    assert (In j (indices_where (fun _ e => expression_all_terminals e) 0 (p_rhs p))) as Hin.
    { apply indices_where_spec. exists e. rewrite Nat.sub_0_r. split; [lia|]. auto. }
    rewrite E in Hin. destruct Hin.
  - unfold expression_all_terminals in Ea. clear E He. induction e as [|t e IH]; [discriminate|].
    cbn [forallb] in Ea. destruct t as [s|n]; [|exists n; left; reflexivity].
    destruct (IH Ea) as [n Hn]. exists n. right. assumption.
Qed.

Lemma depth_bounded_one_draw max depth p : p_rhs p <> [] ->
  exists el, el <> [] /\ NoDup el /\ (forall i, In i el <-> depth_candidate max depth p i) /\
    forall R (rng : rng_ops R) r addr, depth_bounded rng max r addr p depth =
      let '(k, r') := draw_usize rng r (length el) in Ok (nth_error (p_rhs p) (nth k el 0), r').
Proof.
  intro H. pose proof (rhs_length p H) as Hn.
  exists (match depth_bounded_eligible max p depth with nil => seq 0 (length (p_rhs p)) | el => el end).
  assert (Hseq : seq 0 (length (p_rhs p)) <> []) by (destruct (length (p_rhs p)); [lia|discriminate]).
  split; [destruct (depth_bounded_eligible max p depth); [assumption|discriminate]|].
  split; [|split].
  - unfold depth_bounded_eligible. destruct (Nat.leb max depth).
    + pose proof (indices_where_NoDup (fun _ e => expression_all_terminals e) (p_rhs p) 0) as Hd.
      destruct (indices_where _ 0 (p_rhs p)); [apply seq_NoDup|assumption].
    + pose proof (seq_NoDup (length (p_rhs p)) 0) as Hd. destruct (seq 0 (length (p_rhs p))); assumption.
  - intro i. unfold depth_candidate, depth_bounded_eligible. destruct (Nat.leb_spec max depth) as [Hd|Hd].
    + destruct (exists_all_terminals p) as [[j Hj]|[E Hall]].
      * destruct (indices_where _ 0 (p_rhs p)) as [|a l] eqn:E; [destruct Hj|]. rewrite <- E in *.
        rewrite indices_where_spec, Nat.sub_0_r. setoid_rewrite all_terminals_spec.
        split; intros (e & H1 & H2); exists e.
        -- destruct H2; auto.
        -- split; [lia|]. split; [assumption|]. destruct H2 as [H2|[H2|H2]]; [lia|assumption|].
           exfalso. apply indices_where_spec in Hj. destruct Hj as (e' & _ & Hj & Ha).
           apply nth_error_In in Hj. apply H2 in Hj. destruct Hj as [n Hn']. exact (proj1 (all_terminals_spec e') Ha n Hn').
      * rewrite E. rewrite in_seq. split.
        -- intros [_ Hi]. destruct (nth_error (p_rhs p) i) as [e|] eqn:Ee; [|apply nth_error_None in Ee; lia].
           exists e. auto.
        -- intros (e & He & _). apply nth_error_lt in He. lia.
    + assert (Hm : match seq 0 (length (p_rhs p)) with nil => seq 0 (length (p_rhs p)) | el => el end = seq 0 (length (p_rhs p)))
        by (destruct (seq 0 (length (p_rhs p))); reflexivity).
      rewrite Hm, in_seq. split.
      * intros [_ Hi]. destruct (nth_error (p_rhs p) i) as [e|] eqn:Ee; [|apply nth_error_None in Ee; lia].
        exists e. auto.
      * intros (e & He & _). apply nth_error_lt in He. lia.
  - intros R rng r addr. unfold depth_bounded. rewrite pick_from_total by assumption. cbv zeta.
    destruct (depth_bounded_eligible max p depth) as [|a l];
      match goal with |- context [draw_usize rng r ?n] => destruct (draw_usize rng r n) as [k r'] end; reflexivity.
Qed.

Lemma seen_memb x seen : memb seen_eqb x seen = true <-> In x seen.
Proof.
  apply memb_In. intros [a b] [a' b']. unfold seen_eqb; cbn.
  rewrite andb_true_iff, !Nat.eqb_eq. split; [intros []|intro E; injection E]; intros; subst; auto.
Qed.

Lemma coverage_one_draw seen addr p : p_rhs p <> [] ->
  exists el, el <> [] /\ NoDup el /\ (forall i, In i el <-> coverage_candidate seen addr p i) /\
    forall R (rng : rng_ops R) r depth, exists c', coverage_guided rng (mkCov seen r) addr p depth =
        Ok (nth_error (p_rhs p) (nth (fst (draw_usize rng r (length el))) el 0), c') /\
      c_rng c' = snd (draw_usize rng r (length el)) /\
      forall x, In x (c_seen c') <-> x = (addr, nth (fst (draw_usize rng r (length el))) el 0) \/ In x seen.
Proof.
  intro H. pose proof (rhs_length p H) as Hn.
  set (buf := filter (fun i => negb (memb seen_eqb (addr, i) seen)) (seq 0 (length (p_rhs p)))).
  assert (Hbuf : forall j, In j buf <-> j < length (p_rhs p) /\ ~ In (addr, j) seen).
  { intro j. unfold buf. rewrite filter_In, in_seq, negb_true_iff, <- seen_memb, <- not_true_iff_false.
    split; intros []; split; auto; lia. }
  assert (Hseq : seq 0 (length (p_rhs p)) <> []) by (destruct (length (p_rhs p)); [lia|discriminate]).
  exists (match buf with nil => seq 0 (length (p_rhs p)) | el => el end).
  split; [destruct buf; [assumption|discriminate]|]. split; [|split].
  - pose proof (NoDup_filter (fun i => negb (memb seen_eqb (addr, i) seen)) (seq_NoDup (length (p_rhs p)) 0)) as Hd.
    fold buf in Hd. destruct buf; [apply seq_NoDup|assumption].
  - intro i. unfold coverage_candidate. destruct buf as [|a l] eqn:E.
    + rewrite in_seq. split; [|lia]. intros [_ Hi]. split; [assumption|]. right. intros j Hj.
      rewrite <- seen_memb. destruct (memb seen_eqb (addr, j) seen) eqn:Em; [reflexivity|]. exfalso.
      apply not_true_iff_false in Em. rewrite seen_memb in Em. exact (proj2 (Hbuf j) (conj Hj Em)).
    + rewrite Hbuf. split; [intros []; auto|]. intros [Hi [Hs|Hs]]; [auto|]. exfalso.
      destruct (proj1 (Hbuf a) (or_introl eq_refl)) as [Ha Hna]. exact (Hna (Hs a Ha)).
  - intros R rng r depth. unfold coverage_guided, coverage_index. cbn [c_seen c_rng]. fold buf.
    rewrite pick_from_total by assumption. cbv zeta.
    set (el := match buf with nil => seq 0 (length (p_rhs p)) | el => el end).
    change (match buf with nil => seq 0 (length (p_rhs p)) | _ => buf end) with
      (match buf with nil => seq 0 (length (p_rhs p)) | _ :: _ => buf end).
    replace (match buf with nil => seq 0 (length (p_rhs p)) | _ :: _ => buf end) with el
      by (unfold el; destruct buf; reflexivity).
    destruct (draw_usize rng r (length el)) as [k r']. cbn [rbind fst snd]. eexists. split; [reflexivity|].
    split; [reflexivity|]. cbn [c_seen In]. intro x. split; intros [E|E]; auto.
Qed.

(** ** The language of DepthBounded *)

(** [bounded_expansion g h t w]: as [expansion] (GenSpec.v), by a tree with at most [h] levels of
    nonterminals, in which [ok] holds of every expanded nonterminal. *)
Inductive bounded_expansion (g : grammar) (ok : str -> str -> Prop) : nat -> term -> str -> Prop :=
| bx_terminal h s : bounded_expansion g ok h (Terminal s) s
| bx_undefined h n : ~ has_lhs g n -> bounded_expansion g ok (S h) (Nonterminal n) n
| bx_rule h n p e w : first_for g n p -> In e (p_rhs p) -> bounded_expansions g ok h e w -> ok n w ->
    bounded_expansion g ok (S h) (Nonterminal n) w
with bounded_expansions (g : grammar) (ok : str -> str -> Prop) : nat -> expression -> str -> Prop :=
| bxs_nil h : bounded_expansions g ok h [] []
| bxs_cons h t e w1 w2 : bounded_expansion g ok h t w1 -> bounded_expansions g ok h e w2 ->
    bounded_expansions g ok h (t :: e) (w1 ++ w2).

Scheme bounded_expansion_mind := Induction for bounded_expansion Sort Prop
  with bounded_expansions_mind := Induction for bounded_expansions Sort Prop.
Combined Scheme bounded_expansion_mutind from bounded_expansion_mind, bounded_expansions_mind.

(** Level 0 has no nonterminals. *)
Lemma level_0 g ok e : forall w, bounded_expansions g ok 0 e w -> forall n, ~ In (Nonterminal n) e.
Proof.
  induction e as [|t e IH]; intros w H n Hin; [destruct Hin|]. inversion H; subst.
  destruct Hin as [->|Hin]; [|eapply IH; eassumption].
  match goal with H : bounded_expansion _ _ 0 (Nonterminal _) _ |- _ => inversion H end.
Qed.

Section Exact.
  Variable max : nat.
  Variable g : grammar.

  Section Sound.
    Context {R : Type} (rng : rng_ops R).
    Variable accept : R -> str -> str -> bool * R.
    Variable ok : str -> str -> Prop.
    Hypothesis Hok : forall st n w st', accept st n w = (true, st') -> ok n w.
    Hypothesis Hexit : all_terminal_exit g.

    Lemma eval_terms_levels (eval : term -> R -> res (result str * R)) h e :
      (forall t st w st', In t e -> eval t st = Ok (ROk w, st') -> bounded_expansion g ok h t w) ->
      forall acc st w st', eval_terms eval e acc st = Ok (ROk w, st') ->
      exists w', w = acc ++ w' /\ bounded_expansions g ok h e w'.
    Proof.
      induction e as [|t e IH]; intros He acc st w st' H; cbn [eval_terms] in H.
      - injection H as <- <-. exists []. rewrite app_nil_r. split; [reflexivity|constructor].
      - destruct (eval t st) as [[[s|x] st1]| |] eqn:E; cbn [rbind] in H; try discriminate.
        apply He in E; [|left; reflexivity]. destruct (IH ltac:(intros; eapply He; [right|]; eassumption) _ _ _ _ H) as (w' & -> & Hw).
        exists (s ++ w'). rewrite app_assoc. split; [reflexivity|]. constructor; assumption.
    Qed.

    Lemma traverse_levels fuel : forall h ident st depth w st', max <= depth + h ->
      traverse (depth_bounded rng max) accept g fuel ident st depth = Ok (ROk w, st') ->
      bounded_expansion g ok (S h) (Nonterminal ident) w.
    Proof.
      induction fuel as [|fuel IH]; intros h ident st depth w st' Hh H; cbn [traverse] in H; [discriminate|].
      destruct (find_production g ident 0) as [[ix p]|] eqn:Ef.
      - destruct (production_has_no_choice p); [discriminate|].
        apply find_production_Some in Ef. destruct Ef as (Hff & _).
        destruct (first_for_In _ _ _ Hff) as [Hp _].
        destruct (Hexit p Hp) as (e0 & He0 & Ht0). apply all_terminals_spec in Ht0.
        assert (Hne : p_rhs p <> []) by (intro E; rewrite E in He0; destruct He0).
        destruct (depth_bounded_picks rng max st ix p depth Hne) as (e & r1 & Ec & He & Hall).
        rewrite Ec in H. cbn [rbind] in H.
        match type of H with context [eval_terms ?ev e [] r1] => set (eval := ev) in * end.
        destruct (eval_terms eval e [] r1) as [[[s|x] st2]| |] eqn:Ee; cbn [rbind] in H; try discriminate.
        destruct (accept st2 ident s) as [[|] st3] eqn:Ea.
        + injection H as <- <-. apply (eval_terms_levels eval h e) in Ee.
          * destruct Ee as (w' & -> & Hw). cbn in Ea |- *. apply (bx_rule g ok h ident p e w'); try assumption.
            eapply Hok; exact Ea.
          * intros t st4 w st5 Hin Hev. unfold eval in Hev. destruct t as [s'|nt].
            -- injection Hev as <- <-. constructor.
            -- destruct h as [|h]; [|eapply IH; [|exact Hev]; lia]. exfalso.
               assert (Hat : forall n, ~ In (Nonterminal n) e) by (apply all_terminals_spec, Hall; [lia|eauto]).
               exact (Hat nt Hin).
        + eapply IH; [|exact H]. assumption.
      - injection H as <- <-. apply bx_undefined. eapply find_production_None; exact Ef.
    Qed.
  End Sound.

  Section Complete.
    Variable f : str -> str -> bool.
    Hypothesis Hne : no_lone_epsilon g.
    Notation ok := (fun n w => f n w = true).
    Notation run := (traverse (depth_bounded script_rng max) (pure_callback f) g).
    Let eval (fuel depth : nat) := fun t (st : list nat) =>
      match t with
      | Nonterminal nt => run fuel nt st (depth + 1)
      | Terminal s => Ok (ROk s, st)
      end.

    (** The script that makes DepthBounded take alternative [i]. *)
    Lemma depth_bounded_script depth p e i : nth_error (p_rhs p) i = Some e ->
      depth_candidate max depth p i ->
      exists k, forall addr rest, depth_bounded script_rng max (k :: rest) addr p depth = Ok (Some e, rest).
    Proof.
      intros Hi Hc. assert (Hp : p_rhs p <> []) by (intro E; rewrite E in Hi; destruct i; discriminate).
      destruct (depth_bounded_one_draw max depth p Hp) as (el & _ & _ & Hel & Hd).
      apply Hel in Hc. apply (In_nth _ _ 0) in Hc. destruct Hc as (k & Hk & Hki).
      exists k. intros addr rest. rewrite Hd. cbn [draw_usize script_rng script_draw].
      destruct (Nat.ltb_spec k (length el)) as [_|]; [|lia]. rewrite Hki, Hi. reflexivity.
    Qed.

    Lemma levels_scripted :
      (forall h t w, bounded_expansion g ok h t w -> forall depth, depth + 1 + h <= max + 1 ->
         exists script k, forall fuel rest, k <= fuel ->
           eval fuel depth t (script ++ rest) = Ok (ROk w, rest)) /\
      (forall h e w, bounded_expansions g ok h e w -> forall depth, depth + 1 + h <= max + 1 ->
         exists script k, forall fuel acc rest, k <= fuel ->
           eval_terms (eval fuel depth) e acc (script ++ rest) = Ok (ROk (acc ++ w), rest)).
    Proof.
      apply bounded_expansion_mutind.
      - intros h s depth _. exists [], 0. reflexivity.
      - intros h n Hn depth _. exists [], 1. intros [|fuel] rest Hf; [lia|]. unfold eval. cbn.
        destruct (find_production g n 0) as [[ix p]|] eqn:E; [|reflexivity].
        apply find_production_Some in E. exfalso. apply Hn. eapply first_for_has_lhs. apply E.
      - intros h n p e w Hf He Hes IH Hk depth Hd.
        pose proof (no_choice_false g n p e Hne Hf He) as Hnc.
        destruct (find_production_first _ _ _ Hf) as [ix Efp].
        destruct (IH (depth + 1)) as (script & k & IH1); [lia|].
        apply In_nth_error in He. destruct He as [i Hi].
        destruct (depth_bounded_script (depth + 1) p e i Hi) as [j Hj].
        { exists e. split; [assumption|]. destruct (Nat.ltb_spec (depth + 1) max); [auto|]. right. left.
          assert (h = 0) as -> by lia. eapply level_0; exact Hes. }
        exists (j :: script), (S k). intros [|fuel] rest Hle; [lia|]. unfold eval. cbn [traverse].
        rewrite Efp, Hnc. cbn [app]. rewrite Hj. cbn [rbind].
        change (rbind (eval_terms (eval fuel (depth + 1)) e [] (script ++ rest))
          (fun '(r, st) => match r with
             | ROk s => let '(b, st1) := pure_callback f st n s in
                        if b then Ok (ROk s, st1) else run fuel n st1 (depth + 1)
             | RErr x => Ok (RErr x, st) end) = Ok (ROk w, rest)).
        rewrite (IH1 fuel [] rest) by lia. cbn. rewrite Hk. reflexivity.
      - intros h depth _. exists [], 0. intros. cbn. rewrite app_nil_r. reflexivity.
      - intros h t e w1 w2 Ht IH1 He IH2 depth Hd.
        destruct (IH1 depth Hd) as (s1 & k1 & H1). destruct (IH2 depth Hd) as (s2 & k2 & H2).
        exists (s1 ++ s2), (Nat.max k1 k2). intros fuel acc rest Hle. cbn [eval_terms].
        rewrite <- app_assoc. rewrite H1 by lia. cbn [rbind]. rewrite H2 by lia. rewrite app_assoc. reflexivity.
    Qed.

    Lemma levels_scripted_start n w : bounded_expansion g ok (S max) (Nonterminal n) w -> has_lhs g n ->
      exists script k, forall fuel, k <= fuel -> run fuel n script 0 = Ok (ROk w, []).
    Proof.
      intros Hex Hhas. inversion Hex as [|? ? Hn|h ? p e ? Hf He Hes Hk]; subst; [contradiction|].
      pose proof (no_choice_false g n p e Hne Hf He) as Hnc.
      destruct (find_production_first _ _ _ Hf) as [ix Efp].
      apply In_nth_error in He. destruct He as [i Hi].
      destruct (depth_bounded_script 0 p e i Hi) as [j Hj].
      { exists e. split; [assumption|]. destruct max as [|m]; [right; left|left; lia]. eapply level_0; exact Hes. }
      destruct (proj2 levels_scripted _ _ _ Hes 0) as (script & k & IH); [lia|].
      exists (j :: script), (S k). intros [|fuel] Hle; [lia|]. cbn [traverse].
      rewrite Efp, Hnc, Hj. cbn [rbind].
      change (rbind (eval_terms (eval fuel 0) e [] script)
        (fun '(r, st) => match r with
           | ROk s => let '(b, st1) := pure_callback f st n s in
                      if b then Ok (ROk s, st1) else run fuel n st1 0
           | RErr x => Ok (RErr x, st) end) = Ok (ROk w, [])).
      rewrite <- (app_nil_r script). rewrite (IH fuel [] []) by lia. cbn. rewrite Hk. reflexivity.
    Qed.
  End Complete.
End Exact.

Lemma exit_productive g n p rest : g = p :: rest -> p_lhs p = Nonterminal n -> all_terminal_exit g ->
  productive g (Nonterminal n).
Proof.
  intros Eg Hl Hx. destruct (Hx p) as (e & He & Ht); [rewrite Eg; left; reflexivity|].
  rewrite <- Hl. eapply (productive_rule g p e); [rewrite Eg; left; reflexivity|assumption|].
  intros x Hin. destruct (Ht x Hin).
Qed.

Lemma depth_bounded_sound {R} (rng : rng_ops R) max accept (ok : str -> str -> Prop) g fuel st w st' :
  all_terminal_exit g -> (forall st n w st', accept st n w = (true, st') -> ok n w) ->
  generate (depth_bounded rng max) accept g fuel st = Ok (ROk w, st') ->
  exists n p rest, g = p :: rest /\ p_lhs p = Nonterminal n /\ bounded_expansion g ok (S max) (Nonterminal n) w.
Proof.
  intros Hx Hok. unfold generate. destruct (terminates fuel g) as [[|]| |]; cbn [rbind negb]; try discriminate.
  destruct g as [|p rest] eqn:Eg; [discriminate|]. destruct (p_lhs p) as [s|n] eqn:El; [discriminate|].
  intro H. exists n, p, rest. split; [reflexivity|]. split; [assumption|].
  rewrite <- Eg in *. eapply (traverse_levels max g rng accept ok Hok Hx fuel max n st 0); [lia|exact H].
Qed.

Lemma depth_bounded_complete max f g n p rest w :
  g = p :: rest -> p_lhs p = Nonterminal n -> no_lone_epsilon g -> all_terminal_exit g ->
  bounded_expansion g (fun n w => f n w = true) (S max) (Nonterminal n) w ->
  exists script k, forall fuel, k <= fuel ->
    generate (depth_bounded script_rng max) (pure_callback f) g fuel script = Ok (ROk w, []).
Proof.
  intros Eg Hl Hne Hx Hex.
  assert (Hhas : has_lhs g n) by (exists p; rewrite Eg; split; [left; reflexivity|assumption]).
  destruct (levels_scripted_start max g f Hne n w Hex Hhas) as (script & k & H).
  exists script, (Nat.max k (S (length g))). intros fuel Hle. unfold generate.
  destruct (terminates_ends fuel g) as [b Hb]; [lia|]. rewrite Hb. cbn [rbind].
  assert (b = true) as ->.
  { apply (terminates_spec _ _ _ Hb). rewrite Eg. unfold starting_term; cbn [option_map hd_error]. rewrite Hl, <- Eg.
    eapply exit_productive; eassumption. }
  cbn [negb]. assert (Hr := H fuel ltac:(lia)). rewrite Eg in Hr |- *. rewrite Hl. exact Hr.
Qed.

Lemma depth_bounded_language max g n p rest w :
  g = p :: rest -> p_lhs p = Nonterminal n -> no_lone_epsilon g -> all_terminal_exit g ->
  (bounded_expansion g (fun _ _ => True) (S max) (Nonterminal n) w <->
   exists R (rng : rng_ops R) fuel st st', generate_with_strategy (depth_bounded rng max) g fuel st = Ok (ROk w, st')).
Proof.
  intros Eg Hl Hne Hx. split.
  - intro H.
    assert (H' : bounded_expansion g (fun n w => (fun _ _ => true) n w = true) (S max) (Nonterminal n) w).
    { assert (Hw : (forall h t w, bounded_expansion g (fun _ _ => True) h t w -> bounded_expansion g (fun n w => true = true) h t w) /\
                   (forall h t w, bounded_expansions g (fun _ _ => True) h t w -> bounded_expansions g (fun n w => true = true) h t w)).
      { apply bounded_expansion_mutind; intros; econstructor; eauto. }
      apply Hw. assumption. }
    destruct (depth_bounded_complete max (fun _ _ => true) g n p rest w Eg Hl Hne Hx H') as (script & k & Hr).
    exists (list nat), script_rng, k, script, []. apply Hr. lia.
  - intros (R & rng & fuel & st & st' & H).
    destruct (depth_bounded_sound rng max (pure_callback (fun _ _ => true)) (fun _ _ => True) g fuel st w st' Hx (fun _ _ _ _ _ => I) H)
      as (n' & p' & rest' & Eg' & Hl' & Hex).
    rewrite Eg' in Eg. injection Eg as <- <-. rewrite Hl' in Hl. injection Hl as <-. exact Hex.
Qed.

(** ** Runs without errors *)

Section NoError.
  Context {S : Type}.
  Variable choose : S -> nat -> production -> nat -> res (option expression * S).
  Variable accept : S -> str -> str -> bool * S.
  Variable g : grammar.
  Hypothesis Hsome : forall st addr p depth st', p_rhs p <> [] -> choose st addr p depth <> Ok (None, st').
  Hypothesis Hrhs : forall p, In p g -> p_rhs p <> [] /\ p_rhs p <> [[]].

  Lemma eval_terms_no_error (eval : term -> S -> res (result str * S)) :
    (forall t st x st', eval t st <> Ok (RErr x, st')) ->
    forall e acc st x st', eval_terms eval e acc st <> Ok (RErr x, st').
  Proof.
    intro He. induction e as [|t e IH]; intros acc st x st' H; cbn [eval_terms] in H; [discriminate|].
    destruct (eval t st) as [[[s|y] st1]| |] eqn:E; cbn [rbind] in H; try discriminate.
    - exact (IH _ _ _ _ H).
    - exact (He _ _ _ _ E).
  Qed.

  Lemma traverse_no_error fuel : forall ident st depth x st',
    traverse choose accept g fuel ident st depth <> Ok (RErr x, st').
  Proof.
    induction fuel as [|fuel IH]; intros ident st depth x st' H; cbn [traverse] in H; [discriminate|].
    destruct (find_production g ident 0) as [[ix p]|] eqn:Ef; [|discriminate].
    apply find_production_Some in Ef. destruct Ef as (Hff & _). destruct (first_for_In _ _ _ Hff) as [Hp _].
    destruct (Hrhs p Hp) as [Hr1 Hr2].
    destruct (production_has_no_choice p) eqn:En; [apply no_choice_spec in En; tauto|].
    destruct (choose st ix p depth) as [[[e|] st1]| |] eqn:Ec; cbn [rbind] in H; try discriminate;
      [|exact (Hsome _ _ _ _ _ Hr1 Ec)].
    match type of H with context [eval_terms ?ev e [] st1] => set (eval := ev) in * end.
    destruct (eval_terms eval e [] st1) as [[[s|y] st2]| |] eqn:Ee; cbn [rbind] in H; try discriminate.
    - destruct (accept st2 ident s) as [[|] st3]; [discriminate|]. exact (IH _ _ _ _ _ H).
    - eapply eval_terms_no_error; [|exact Ee]. intros t st3 z st4 Hev. unfold eval in Hev.
      destruct t; [discriminate|]. exact (IH _ _ _ _ _ Hev).
  Qed.

  Lemma generate_no_error fuel st x st' n p rest : g = p :: rest -> p_lhs p = Nonterminal n ->
    productive g (Nonterminal n) -> generate choose accept g fuel st <> Ok (RErr x, st').
  Proof.
    intros Eg Hl Hp. unfold generate. destruct (terminates fuel g) as [b| |] eqn:Et; cbn [rbind]; try discriminate.
    assert (b = true) as ->.
    { apply (terminates_spec _ _ _ Et). rewrite Eg. unfold starting_term; cbn [option_map hd_error]. rewrite Hl, <- Eg. exact Hp. }
    cbn [negb]. intro H. rewrite Eg in H at 1. rewrite Hl in H.  exact (traverse_no_error _ _ _ _ _ _ H).
  Qed.
End NoError.

Lemma strategies_no_error g n p rest : g = p :: rest -> p_lhs p = Nonterminal n ->
  (forall q, In q g -> p_rhs q <> [] /\ p_rhs q <> [[]]) -> productive g (Nonterminal n) ->
  forall R (rng : rng_ops R) fuel x,
  (forall accept r st', generate (random_walk rng) accept g fuel r <> Ok (RErr x, st')) /\
  (forall max accept r st', generate (depth_bounded rng max) accept g fuel r <> Ok (RErr x, st')) /\
  (forall accept c st', generate (coverage_guided rng) accept g fuel c <> Ok (RErr x, st')) /\
  (forall checks rec nonrec accept r st', generate (weighted rng checks rec nonrec) accept g fuel r <> Ok (RErr x, st')).
Proof.
  intros Eg Hl Hr Hp R rng fuel x.
  repeat split; intros; eapply generate_no_error; try eassumption; intros st addr q depth st1 H E.
  - destruct (random_walk_picks rng st addr q depth H) as (e & r' & E' & _). congruence.
  - destruct (depth_bounded_picks rng max st addr q depth H) as (e & r' & E' & _). congruence.
  - destruct (coverage_guided_picks rng st addr q depth H) as (e & r' & E' & _). congruence.
  - assert (Hs : checks = false \/ (nsum (fill_weights rec nonrec q) < 2 ^ 32)%N).
    { destruct checks; [|left; reflexivity]. right. apply N.lt_nge. intro Hge. rewrite weighted_overflow_panics in E by assumption. discriminate. }
    destruct (weighted_picks rng checks rec nonrec st addr q depth H Hs) as (e & r' & E' & _). congruence.
Qed.
