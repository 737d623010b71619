(** How many draws CoverageGuided takes on average. *)
From Verif Require Export ExpectProofs.
From Verif Require Import StrategyProofs.
From Coq Require Import Lia.

Section Coverage.
  Variable g : grammar.
  Notation yes := (fun _ _ : str => true).

  Definition unseen (seen : list (nat * nat)) (addr : nat) (p : production) : list nat :=
    filter (fun i => negb (memb seen_eqb (addr, i) seen)) (seq 0 (length (p_rhs p))).
  Definition cov_index (seen : list (nat * nat)) (addr : nat) (p : production) (x : nat) : nat :=
    match unseen seen addr p with nil => x mod length (p_rhs p) | buf => nth (x mod length buf) buf 0 end.

  Lemma cov_index_lt seen addr p x : p_rhs p <> [] -> cov_index seen addr p x < length (p_rhs p).
  Proof.
    intro H. unfold cov_index. destruct (unseen seen addr p) as [|i buf] eqn:E.
    - apply Nat.mod_upper_bound. destruct (p_rhs p); [contradiction|discriminate].
    - rewrite <- E. assert (Hin : In (nth (x mod length (unseen seen addr p)) (unseen seen addr p) 0) (unseen seen addr p)).
      { apply nth_In, Nat.mod_upper_bound. rewrite E. discriminate. }
      unfold unseen in Hin at 3. apply filter_In in Hin. destruct Hin as [Hin _]. apply in_seq in Hin. lia.
  Qed.

  Lemma cov_choose f seen i addr p d : p_rhs p <> [] ->
    coverage_guided (stream_rng f) (mkCov seen i) addr p d =
      Ok (Some (nth (cov_index seen addr p (f i)) (p_rhs p) []), mkCov ((addr, cov_index seen addr p (f i)) :: seen) (S i)).
  Proof.
    intro H. pose proof (cov_index_lt seen addr p (f i) H) as Hlt.
    assert (E : coverage_index (stream_rng f) (mkCov seen i) addr p = Ok (cov_index seen addr p (f i), mkCov ((addr, cov_index seen addr p (f i)) :: seen) (S i))).
    { unfold coverage_index. cbn [c_seen c_rng]. fold (unseen seen addr p). unfold cov_index. unfold pick_from, random_index.
      destruct (unseen seen addr p) as [|j buf].
      - destruct (Nat.eqb_spec (length (p_rhs p)) 0) as [E|_]; [destruct (p_rhs p); [contradiction|discriminate]|]. reflexivity.
      - cbn [length Nat.eqb rbind draw_usize stream_rng stream_draw].
        rewrite (nth_error_nth' (j :: buf) 0) by (apply Nat.mod_upper_bound; discriminate). reflexivity. }
    unfold coverage_guided. rewrite E. cbn [rbind]. rewrite (nth_error_nth' (p_rhs p) []) by exact Hlt. reflexivity.
  Qed.

  (** The machine: the nonterminals that wait, the alternatives seen, the numbers. *)
  Fixpoint mach (seen : list (nat * nat)) (st : list str) (s : list nat) : nat * bool :=
    match st with
    | [] => (0, true)
    | n :: st =>
        match find_production g n 0 with
        | None => (0, true)
        | Some (ix, p) =>
            if production_has_no_choice p then (0, true)
            else match s with
                 | [] => (0, false)
                 | x :: s =>
                     let i := cov_index seen ix p x in
                     let (k, b) := mach ((ix, i) :: seen) (names g (nth i (p_rhs p) []) ++ st) s in (S k, b)
                 end
        end
    end.

  Lemma mach_cons seen n st s : mach seen (n :: st) s =
    match find_production g n 0 with
    | None => (0, true)
    | Some (ix, p) =>
        if production_has_no_choice p then (0, true)
        else match s with
             | [] => (0, false)
             | x :: s =>
                 let i := cov_index seen ix p x in
                 let (k, b) := mach ((ix, i) :: seen) (names g (nth i (p_rhs p) []) ++ st) s in (S k, b)
             end
    end.
  Proof. destruct s; reflexivity. Qed.

  Lemma mach_late s : forall seen st, snd (mach seen st s) = false -> fst (mach seen st s) = length s.
  Proof.
    induction s as [|x s IH]; intros seen [|n st]; rewrite ?mach_cons; try discriminate;
      destruct (find_production g n 0) as [[ix p]|]; try discriminate; destruct (production_has_no_choice p); try discriminate; [reflexivity|].
    cbv zeta. specialize (IH ((ix, cov_index seen ix p x) :: seen) (names g (nth (cov_index seen ix p x) (p_rhs p) []) ++ st)).
    destruct (mach ((ix, cov_index seen ix p x) :: seen) (names g (nth (cov_index seen ix p x) (p_rhs p) []) ++ st) s) as [k b]. cbn in *. intro Hb. rewrite (IH Hb). reflexivity.
  Qed.

  Lemma mach_le s : forall seen st, fst (mach seen st s) <= length s.
  Proof.
    induction s as [|x s IH]; intros seen [|n st]; rewrite ?mach_cons; cbn [mach fst length]; try lia;
      destruct (find_production g n 0) as [[ix p]|]; cbn [fst]; try lia; destruct (production_has_no_choice p); cbn [fst]; try lia.
    cbv zeta. specialize (IH ((ix, cov_index seen ix p x) :: seen) (names g (nth (cov_index seen ix p x) (p_rhs p) []) ++ st)).
    destruct (mach ((ix, cov_index seen ix p x) :: seen) (names g (nth (cov_index seen ix p x) (p_rhs p) []) ++ st) s) as [k b]. cbn in *. lia.
  Qed.

  (** ** What the machine does, the generator does *)
  Variable f : nat -> nat.
  Notation trav := (traverse (coverage_guided (stream_rng f)) (pure_callback yes) g).
  Definition eval_at (fuel d : nat) (t : term) (c : @coverage nat) : res (result str * @coverage nat) :=
    match t with Nonterminal nt => trav fuel nt c d | Terminal s => Ok (ROk s, c) end.

  Definition agrees (i : nat) (s : list nat) : Prop := forall t, t < length s -> f (i + t) = nth t s 0.

  Lemma agrees_skip i s j : j <= length s -> agrees i s -> agrees (i + j) (skipn j s).
  Proof.
    intros Hj H t Ht. rewrite skipn_length in Ht. rewrite <- Nat.add_assoc, H by lia. clear - Hj. revert s Hj. induction j as [|j IH]; intros [|x s] Hj; cbn in *; try lia; try reflexivity.
    apply IH. lia.
  Qed.

  Lemma eval_more fuel fuel' d e acc c r : fuel <= fuel' -> eval_terms (eval_at fuel d) e acc c = Ok r -> eval_terms (eval_at fuel' d) e acc c = Ok r.
  Proof.
    intro Hle. apply eval_terms_mono. intros [t|n] st r'; cbn [eval_at]; [auto|]. intro H. eapply traverse_mono; eassumption.
  Qed.

  Lemma mach_eval m : forall s, length s < m -> forall e seen st k i d, agrees i s -> mach seen (names g e ++ st) s = (k, true) ->
    exists j seen' r fuel, j <= length s /\
      (forall acc, eval_terms (eval_at fuel d) e acc (mkCov seen i) = Ok (with_acc acc r, mkCov seen' (i + j))) /\
      ((exists x, r = RErr x /\ k = j) \/ (exists w k', r = ROk w /\ mach seen' st (skipn j s) = (k', true) /\ k = j + k')).
  Proof.
    induction m as [|m IHm]; intros s Hs; [lia|]. induction e as [|t e IHe]; intros seen st k i d Ha Hu.
    - exists 0, seen, (ROk []), 0. split; [lia|]. split.
      + intro acc. cbn. rewrite app_nil_r, Nat.add_0_r. reflexivity.
      + right. exists [], k. repeat split. exact Hu.
    - destruct t as [t|n].
      + destruct (IHe seen st k i d Ha Hu) as (j & seen' & r & fuel & H1 & H2 & H3).
        exists j, seen', (with_acc t r), fuel. split; [exact H1|]. split.
        * intro acc. cbn [eval_terms eval_at rbind]. rewrite H2. destruct r; cbn [with_acc]; rewrite ?app_assoc; reflexivity.
        * destruct H3 as [(x & -> & H3)|(w & k' & -> & H3)]; [left|right]; cbn [with_acc]; eauto.
      + cbn [names flat_map] in Hu. fold (names g e) in Hu. destruct (find_production g n 0) as [[ix p]|] eqn:Ef; cycle 1.
        * assert (Er : rule_of g n = None) by (unfold rule_of; rewrite Ef; reflexivity). rewrite Er in Hu.
          destruct (IHe seen st k i d Ha Hu) as (j & seen' & r & fuel & H1 & H2 & H3).
          exists j, seen', (with_acc n r), (S fuel). split; [exact H1|]. split.
          -- intro acc. cbn [eval_terms eval_at traverse]. rewrite Ef. cbn [rbind].
             rewrite (eval_more fuel (S fuel) d e (acc ++ n) _ _ (Nat.le_succ_diag_r fuel) (H2 (acc ++ n))).
             destruct r; cbn [with_acc]; rewrite ?app_assoc; reflexivity.
          -- destruct H3 as [(x & -> & H3)|(w & k' & -> & H3)]; [left|right]; cbn [with_acc]; eauto.
        * assert (Er : rule_of g n = Some p) by (unfold rule_of; rewrite Ef; reflexivity). rewrite Er in Hu. cbn [app] in Hu. rewrite mach_cons, Ef in Hu.
          destruct (production_has_no_choice p) eqn:Ec.
          { injection Hu as <-. exists 0, seen, (RErr (GenerateError msg_no_alternative)), 1. split; [lia|]. split; [|left; eauto].
            intro acc. cbn [eval_terms eval_at traverse]. rewrite Ef, Ec. cbn. rewrite Nat.add_0_r. reflexivity. }
          destruct s as [|x s]; [discriminate|]. cbv zeta in Hu. cbn in Hs.
          assert (Hx : f i = x) by (specialize (Ha 0 ltac:(cbn; lia)); rewrite Nat.add_0_r in Ha; exact Ha).
          assert (Ha1 : agrees (S i) s). { intros t Ht. specialize (Ha (S t) ltac:(cbn; lia)). cbn [nth] in Ha. rewrite <- Ha. f_equal. lia. }
          pose proof (proj1 (choosable_spec p) Ec) as [Hp _].
          set (ii := cov_index seen ix p x) in *. set (e' := nth ii (p_rhs p) []) in *.
          destruct (mach ((ix, ii) :: seen) (names g e' ++ names g e ++ st) s) as [k1 b] eqn:E1. injection Hu as <- ->.
          destruct (IHm s ltac:(lia) e' _ _ _ (S i) (d + 1) Ha1 E1) as (j & seen1 & r & fuel & H1 & H2 & H3).
          destruct r as [w|y].
          -- destruct H3 as [(x' & E & _)|(w' & k' & E & H4 & H5)]; [discriminate|]. injection E as <-.
             assert (Hs' : length (skipn j s) < m) by (rewrite skipn_length; lia).
             destruct (IHm _ Hs' e seen1 st k' (S i + j) d (agrees_skip _ _ _ H1 Ha1) H4) as (j2 & seen2 & r2 & fuel2 & G1 & G2 & G3).
             rewrite skipn_length in G1.
             exists (S j + j2), seen2, (with_acc w r2), (S (fuel + fuel2)). split; [cbn; lia|]. split.
             ++ intro acc. cbn [eval_terms eval_at traverse]. rewrite Ef, Ec, cov_choose, Hx by exact Hp. fold ii. fold e'. cbn [rbind].
                change (eval_terms _ e' [] (mkCov ((ix, ii) :: seen) (S i))) with (eval_terms (eval_at (fuel + fuel2) (d + 1)) e' [] (mkCov ((ix, ii) :: seen) (S i))).
                rewrite (eval_more fuel (fuel + fuel2) (d + 1) e' [] _ _ (Nat.le_add_r _ _) (H2 [])). cbn [rbind with_acc app pure_callback].
                rewrite (eval_more fuel2 (S (fuel + fuel2)) d e (acc ++ w) _ _ ltac:(lia) (G2 (acc ++ w))).
                destruct r2; cbn [with_acc]; rewrite ?app_assoc; do 2 f_equal; f_equal; lia.
             ++ cbn [Nat.add skipn]. destruct G3 as [(y & -> & G3)|(w2 & k2 & -> & G3 & G4)]; [left|right]; cbn [with_acc].
                ** exists y. split; [reflexivity|lia].
                ** exists (w ++ w2), k2. split; [reflexivity|]. split; [|lia]. rewrite <- G3. f_equal. symmetry. apply skipn_twice.
          -- destruct H3 as [(x' & E & H4)|(w' & k' & E & _)]; [|discriminate].
             exists (S j), seen1, (RErr y), (S fuel). split; [cbn; lia|]. split.
             ++ intro acc. cbn [eval_terms eval_at traverse]. rewrite Ef, Ec, cov_choose, Hx by exact Hp. fold ii. fold e'. cbn [rbind].
                change (eval_terms _ e' [] (mkCov ((ix, ii) :: seen) (S i))) with (eval_terms (eval_at fuel (d + 1)) e' [] (mkCov ((ix, ii) :: seen) (S i))).
                rewrite H2. cbn [rbind with_acc]. do 2 f_equal. f_equal. lia.
             ++ left. exists y. split; [reflexivity|lia].
  Qed.
End Coverage.

(** ** The sum over all lists *)
Lemma sum_drop {A} (F G : A -> nat) x c l : (forall y, In y l -> G y <= F y) -> In x l -> G x + c <= F x -> list_sum (map G l) + c <= list_sum (map F l).
Proof.
  induction l as [|y l IH]; intros H Hin Hx; [destruct Hin|]. cbn [map list_sum fold_right]. unfold list_sum in *.
  destruct Hin as [->|Hin].
  - assert (Hl : fold_right Nat.add 0 (map G l) <= fold_right Nat.add 0 (map F l)); [|lia].
    apply (sum_le G F l). intros y Hy. apply H. right. exact Hy.
  - assert (Hy : G y <= F y) by (apply H; left; reflexivity). assert (Hl : fold_right Nat.add 0 (map G l) + c <= fold_right Nat.add 0 (map F l)); [|lia].
    apply IH; [|exact Hin|exact Hx]. intros z Hz. apply H. right. exact Hz.
Qed.

Section Sums.
  Variable g : grammar.
  Variable base : nat.
  Hypothesis Hdiv : forall p, In p g -> choosable p -> Nat.divide (length (p_rhs p)) base.
  Variable K : nat.
  Variable W : str -> nat.
  Hypothesis Hest : estimate g random_alternatives K (fun _ => W).

  Definition weigh (st : list str) : nat := list_sum (map W st).
  Definition nth_rule (a : nat) : production := nth a g (mkProd (Terminal []) []).
  Definition pending_at (seen : list (nat * nat)) (a : nat) : nat :=
    list_sum (map (fun i => if memb seen_eqb (a, i) seen then 0 else load W (nth i (p_rhs (nth_rule a)) [])) (seq 0 (length (p_rhs (nth_rule a))))).
  Definition pending (seen : list (nat * nat)) : nat := list_sum (map (pending_at seen) (seq 0 (length g))).

  Lemma memb_more (x y : nat * nat) seen : memb seen_eqb x seen = true -> memb seen_eqb x (y :: seen) = true.
  Proof. unfold memb. cbn. intros ->. apply orb_true_r. Qed.

  Lemma pending_at_le seen y a : pending_at (y :: seen) a <= pending_at seen a.
  Proof.
    apply sum_le. intros i _. destruct (memb seen_eqb (a, i) seen) eqn:E; [rewrite (memb_more _ y _ E); lia|].
    destruct (memb seen_eqb (a, i) (y :: seen)); lia.
  Qed.

  Lemma pending_le seen y : pending (y :: seen) <= pending seen.
  Proof. apply sum_le. intros a _. apply pending_at_le. Qed.

  Lemma pending_drop seen ix p i : nth_error g ix = Some p -> In i (unseen seen ix p) ->
    pending ((ix, i) :: seen) + load W (nth i (p_rhs p) []) <= pending seen.
  Proof.
    intros Hp Hi. unfold unseen in Hi. apply filter_In in Hi. destruct Hi as [Hi Hm]. apply negb_true_iff in Hm.
    assert (Er : nth_rule ix = p) by (apply nth_error_nth with (d := mkProd (Terminal []) []) in Hp; exact Hp).
    apply (sum_drop (pending_at seen) (pending_at ((ix, i) :: seen)) ix).
    - intros a _. apply pending_at_le.
    - apply in_seq. assert (ix < length g) by (apply nth_error_Some; congruence). lia.
    - unfold pending_at. rewrite Er.
      apply (sum_drop (fun i0 => if memb seen_eqb (ix, i0) seen then 0 else load W (nth i0 (p_rhs p) [])) (fun i0 => if memb seen_eqb (ix, i0) ((ix, i) :: seen) then 0 else load W (nth i0 (p_rhs p) [])) i).
      + intros i0 _. destruct (memb seen_eqb (ix, i0) seen) eqn:E; [rewrite (memb_more _ (ix, i) _ E); lia|]. destruct (memb seen_eqb (ix, i0) ((ix, i) :: seen)); lia.
      + exact Hi.
      + rewrite Hm. unfold memb at 1. cbn [existsb]. unfold seen_eqb at 1. cbn [fst snd]. rewrite !Nat.eqb_refl. cbn. lia.
  Qed.

  Lemma pending_all seen : pending seen <= list_sum (map (fun p => list_sum (map (load W) (p_rhs p))) g).
  Proof.
    rewrite <- (sum_nth (fun p => list_sum (map (load W) (p_rhs p))) (mkProd (Terminal []) []) g). apply sum_le. intros a _.
    unfold pending_at. fold (nth_rule a). rewrite <- (sum_nth (load W) [] (p_rhs (nth_rule a))). apply sum_le. intros i _.
    destruct (memb seen_eqb (a, i) seen); lia.
  Qed.

  Lemma weigh_push e st : weigh (names g e ++ st) <= load W e + weigh st.
  Proof.
    unfold weigh. rewrite map_app, list_sum_app. apply Nat.add_le_mono_r. unfold load, names. clear.
    induction e as [|[s|n] e IH]; [cbn; lia|exact IH|]. cbn [flat_map map list_sum fold_right]. unfold list_sum in *. rewrite map_app, fold_right_app.
    destruct (rule_of g n); cbn [map app fold_right]; lia.
  Qed.

  Lemma cover_draws_le len : forall seen st,
    K * list_sum (map (fun s => fst (mach g seen st s)) (scripts base len)) <= (weigh st + pending seen) * base ^ len.
  Proof.
    induction len as [|len IH]; intros seen st.
    - cbn [scripts map list_sum fold_right]. assert (E : fst (mach g seen st []) = 0); [|rewrite E; lia].
      destruct st as [|n st]; [reflexivity|]. rewrite mach_cons. destruct (find_production g n 0) as [[ix p]|]; [|reflexivity]. destruct (production_has_no_choice p); reflexivity.
    - assert (Hzero : (forall s, fst (mach g seen st s) = 0) -> K * list_sum (map (fun s => fst (mach g seen st s)) (scripts base (S len))) <= (weigh st + pending seen) * base ^ S len).
      { intro H. rewrite (map_ext _ (fun _ => 0) H), sum_const. lia. }
      destruct st as [|n st]; [apply Hzero; intros [|x s]; reflexivity|].
      destruct (find_production g n 0) as [[ix p]|] eqn:Ef; [|apply Hzero; intro s; rewrite mach_cons, Ef; reflexivity].
      destruct (production_has_no_choice p) eqn:Ec; [apply Hzero; intro s; rewrite mach_cons, Ef, Ec; reflexivity|].
      clear Hzero. pose proof (proj1 (choosable_spec p) Ec) as Hc. destruct (find_production_Some _ _ _ _ _ Ef) as (Hf & _ & Hix). rewrite Nat.sub_0_r in Hix.
      pose proof (proj1 (first_for_In _ _ _ Hf)) as Hin.
      set (next := fun x => names g (nth (cov_index seen ix p x) (p_rhs p) []) ++ st).
      set (seen' := fun x => (ix, cov_index seen ix p x) :: seen).
      set (B := base ^ len).
      assert (HD : list_sum (map (fun s => fst (mach g seen (n :: st) s)) (scripts base (S len))) =
        base * B + list_sum (map (fun x => list_sum (map (fun s => fst (mach g (seen' x) (next x) s)) (scripts base len))) (seq 0 base))).
      { cbn [scripts]. rewrite sum_flat. rewrite (map_ext _ (fun x => B + list_sum (map (fun s => fst (mach g (seen' x) (next x) s)) (scripts base len)))).
        - rewrite sum_add, sum_const, seq_length. lia.
        - intro x. rewrite map_map. assert (HB : B = list_sum (map (fun _ => 1) (scripts base len))) by (rewrite sum_const, scripts_length; unfold B; lia).
          rewrite HB, <- sum_add. f_equal. apply map_ext. intro s. rewrite mach_cons, Ef, Ec. cbv zeta. fold (next x). fold (seen' x).
          destruct (mach g (seen' x) (next x) s). reflexivity. }
      rewrite HD, Nat.mul_add_distr_l.
      assert (HS : K * list_sum (map (fun x => list_sum (map (fun s => fst (mach g (seen' x) (next x) s)) (scripts base len))) (seq 0 base)) <=
        list_sum (map (fun x => load W (nth (cov_index seen ix p x) (p_rhs p) []) + weigh st + pending (seen' x)) (seq 0 base)) * B).
      { rewrite Nat.mul_comm, <- sum_scale, <- sum_scale. apply sum_le. intros x _. rewrite Nat.mul_comm. eapply Nat.le_trans; [apply IH|].
        apply Nat.mul_le_mono_r. apply Nat.add_le_mono_r. apply weigh_push. }
      set (T := list_sum (map (fun x => load W (nth (cov_index seen ix p x) (p_rhs p) []) + weigh st + pending (seen' x)) (seq 0 base))) in *.
      assert (HT : K * base + T <= (W n + weigh st + pending seen) * base).
      { pose proof (Hest 0 n p Hf Hc) as He. unfold random_alternatives in He. set (m := length (p_rhs p)) in *.
        assert (Hm : 0 < m) by (unfold m; destruct Hc as [Hc _]; destruct (p_rhs p); [contradiction|cbn; lia]).
        destruct (unseen seen ix p) as [|j buf] eqn:Eu.
        - destruct (Hdiv p Hin Hc) as [q Hq]. fold m in Hq.
          assert (H : T <= list_sum (map (fun x => load W (nth (x mod m) (p_rhs p) []) + (weigh st + pending seen)) (seq 0 base))).
          { apply sum_le. intros x _. pose proof (pending_le seen (ix, cov_index seen ix p x)). unfold cov_index at 1. rewrite Eu. fold m. unfold seen'. lia. }
          eapply Nat.le_trans; [apply Nat.add_le_mono_l, H|]. rewrite sum_add, sum_const, seq_length.
          rewrite Hq, (sum_mod (fun k => load W (nth k (p_rhs p) [])) m Hm q).
          assert (Hs : list_sum (map (fun k => load W (nth k (p_rhs p) [])) (seq 0 m)) = list_sum (map (load W) (p_rhs p))) by apply sum_nth.
          rewrite Hs. set (L := list_sum (map (load W) (p_rhs p))) in *. nia.
        - assert (H : T <= list_sum (map (fun _ => weigh st + pending seen) (seq 0 base))).
          { apply sum_le. intros x _. assert (Hi : In (cov_index seen ix p x) (unseen seen ix p)).
            { unfold cov_index. rewrite Eu. apply nth_In, Nat.mod_upper_bound. discriminate. }
            pose proof (pending_drop seen ix p _ Hix Hi). unfold seen'. lia. }
          rewrite sum_const, seq_length in H. assert (HK : K <= W n) by nia. nia. }
      change (weigh (n :: st)) with (W n + weigh st). cbn [Nat.pow]. fold B. nia.
  Qed.
End Sums.

(** ** From the machine to the generator *)
Section Average.
  Variables (g : grammar) (p : production) (rest : list production) (n : str) (fuel0 : nat).
  Hypothesis Eg : g = p :: rest.
  Hypothesis Hl : p_lhs p = Nonterminal n.
  Hypothesis Ht : terminates fuel0 g = Ok true.
  Notation yes := (fun _ _ : str => true).
  Variable seen : list (nat * nat).
  Notation gen f fuel := (generate (coverage_guided (stream_rng f)) (pure_callback yes) g fuel (mkCov seen 0)).
  Notation run := (fun f fuel => let* (r, c) := gen f fuel in Ok (r, c_rng c)).

  Lemma mach_run f s k : agrees f 0 s -> mach g seen [n] s = (k, true) -> exists fuel r, run f fuel = Ok (r, k).
  Proof.
    intros Ha Hm. assert (Er : rule_of g n <> None).
    { assert (H : first_for g n p) by (exists [], rest; rewrite Eg; repeat split; [exact Hl|intros q []]). apply rule_some in H. congruence. }
    assert (Hn : names g [Nonterminal n] ++ [] = [n]) by (cbn; destruct (rule_of g n); [reflexivity|contradiction]).
    rewrite <- Hn in Hm. destruct (mach_eval g f (S (length s)) s ltac:(lia) _ _ _ _ 0 0 Ha Hm) as (j & seen' & r & fuel & H1 & H2 & H3).
    specialize (H2 []). cbn [eval_terms eval_at] in H2. destruct (traverse _ _ _ fuel n _ 0) as [[r1 c1]| |] eqn:E; cbn [rbind] in H2; try discriminate.
    assert (Hk : k = j /\ exists r2, (r1, c1) = (r2, mkCov seen' j)).
    { destruct r1 as [w|x]; injection H2 as E1 E2; subst c1; (split; [|eexists; f_equal]).
      - destruct H3 as [(x & -> & H3)|(w' & k' & _ & H3 & H4)]; [exact H3|]. destruct (skipn j s); injection H3 as <-; lia.
      - destruct H3 as [(x' & -> & H3)|(w' & k' & _ & H3 & H4)]; [exact H3|]. destruct (skipn j s); injection H3 as <-; lia. }
    destruct Hk as [-> [r2 Hk]]. injection Hk as <- ->. exists (fuel0 + fuel), r1. unfold generate.
    rewrite (terminates_mono g _ (fuel0 + fuel) _ Ht (Nat.le_add_r _ _)). cbn [rbind negb]. rewrite Eg, Hl. rewrite <- Eg.
    rewrite (traverse_mono _ _ _ _ (fuel0 + fuel) _ _ _ _ E ltac:(lia)). reflexivity.
  Qed.

  Lemma run_det f fuel fuel' x y : run f fuel = Ok x -> run f fuel' = Ok y -> x = y.
  Proof.
    intros H H'. cbv beta in H, H'. destruct (gen f fuel) as [[r c]| |] eqn:E; cbn [rbind] in H; try discriminate.
    destruct (gen f fuel') as [[r' c']| |] eqn:E'; cbn [rbind] in H'; try discriminate. pose proof (generate_det _ _ _ _ _ _ _ _ E E') as Hd. congruence.
  Qed.

  Lemma source_agrees s : agrees (source s) 0 s.
  Proof. intros t _. reflexivity. Qed.

  Lemma cover_average K W base len :
    (forall q, In q g -> choosable q -> Nat.divide (length (p_rhs q)) base) ->
    estimate g random_alternatives K (fun _ => W) ->
    average_draws run base len K (W n + list_sum (map (fun q => list_sum (map (load W) (p_rhs q))) g)).
  Proof.
    intros Hdiv He R late HR Hlate HinR Hinl.
    pose proof (cover_draws_le g base Hdiv K W He len seen [n]) as Hall. unfold weigh in Hall. cbn [map list_sum fold_right] in Hall. rewrite Nat.add_0_r in Hall.
    apply Nat.le_trans with ((W n + pending g W seen) * base ^ len); [|apply Nat.mul_le_mono_r, Nat.add_le_mono_l, pending_all].
    eapply Nat.le_trans; [|exact Hall]. apply Nat.mul_le_mono_l.
    set (F := fun s => fst (mach g seen [n] s)).
    assert (H1 : forall s l, In (s, l) R -> l <= F s).
    { intros s l Hs. destruct (HinR s l Hs) as (Hsc & Hl' & fuel & r & E). apply scripts_spec in Hsc. destruct Hsc as [Hsl _].
      unfold F. destruct (mach g seen [n] s) as [k b] eqn:Eu. cbn [fst]. destruct b.
      - destruct (mach_run (source s) s k (source_agrees s) Eu) as (fuel' & r' & E'). pose proof (run_det _ _ _ _ _ E E') as Hd. injection Hd as _ <-. lia.
      - pose proof (mach_late g s seen [n]) as Hu. rewrite Eu in Hu. cbn in Hu. rewrite (Hu eq_refl). lia. }
    assert (H2 : forall s, In s late -> F s = len).
    { intros s Hs. destruct (Hinl s Hs) as [Hsc Hno]. apply scripts_spec in Hsc. destruct Hsc as [Hsl _]. unfold F.
      pose proof (mach_le g s seen [n]) as Hle. destruct (mach g seen [n] s) as [k b] eqn:Eu. destruct b.
      - exfalso. apply Hno. destruct (mach_run (source s) s k (source_agrees s) Eu) as (fuel & r & E). exists fuel, r, k. cbn in Hle. split; [lia|exact E].
      - pose proof (mach_late g s seen [n]) as Hu. rewrite Eu in Hu. cbn in Hu. cbn [fst]. rewrite (Hu eq_refl). exact Hsl. }
    assert (H3 : list_sum (map snd R) + len * length late <= list_sum (map F (map fst R ++ late))).
    { rewrite map_app, list_sum_app, map_map. apply Nat.add_le_mono.
      - apply sum_le. intros [s l] Hs. apply H1, Hs.
      - rewrite <- (sum_const late len). apply sum_le. intros s Hs. rewrite (H2 s Hs). lia. }
    eapply Nat.le_trans; [exact H3|]. apply (sum_incl F).
    - apply NoDup_app'; [exact HR|exact Hlate|]. intros s Hs Hs'. apply in_map_iff in Hs. destruct Hs as ([s0 l] & <- & Hs). cbn in *.
      destruct (HinR s0 l Hs) as (_ & Hl' & fuel & r & E). destruct (Hinl s0 Hs') as [_ Hno]. apply Hno. exists fuel, r, l. auto.
    - intros s Hs. apply in_app_iff in Hs. destruct Hs as [Hs|Hs].
      + apply in_map_iff in Hs. destruct Hs as ([s0 l] & <- & Hs). apply (HinR s0 l Hs).
      + apply (Hinl s Hs).
  Qed.
End Average.

(** ** Once everything has been seen the choices are those of RandomWalk *)
Section Seen.
  Variable g : grammar.
  Context {R : Type} (rng : rng_ops R).
  Variable f : str -> str -> bool.

  Definition all_seen (seen : list (nat * nat)) : Prop := forall ix p i, nth_error g ix = Some p -> i < length (p_rhs p) -> In (ix, i) seen.

  Definition same_result (a : res (result str * @coverage R)) (b : res (result str * R)) : Prop :=
    match a, b with
    | Ok (x, c), Ok (y, r) => x = y /\ c_rng c = r /\ all_seen (c_seen c)
    | Panic, Panic => True
    | OutOfFuel, OutOfFuel => True
    | _, _ => False
    end.

  Lemma seen_eqb_eq a b : seen_eqb a b = true <-> a = b.
  Proof.
    destruct a as [a1 a2], b as [b1 b2]. unfold seen_eqb. cbn. rewrite andb_true_iff, !Nat.eqb_eq. split; [intros []|intro E; injection E]; intros; subst; auto.
  Qed.

  Lemma unseen_nil seen ix p : all_seen seen -> nth_error g ix = Some p -> unseen seen ix p = [].
  Proof.
    intros H Hp. unfold unseen. destruct (filter _ _) as [|i l] eqn:E; [reflexivity|]. exfalso.
    assert (Hi : In i (i :: l)) by (left; reflexivity). rewrite <- E in Hi. apply filter_In in Hi. destruct Hi as [H1 H2]. apply in_seq in H1.
    apply negb_true_iff in H2. rewrite (proj2 (memb_In seen_eqb seen_eqb_eq (ix, i) seen)) in H2; [discriminate|]. apply (H ix p i Hp). lia.
  Qed.

  Lemma seen_choose c ix p d : all_seen (c_seen c) -> nth_error g ix = Some p ->
    match coverage_guided rng c ix p d, random_walk rng (c_rng c) ix p d with
    | Ok (e, c'), Ok (e', r) => e = e' /\ c_rng c' = r /\ all_seen (c_seen c')
    | Panic, Panic => True
    | _, _ => False
    end.
  Proof.
    intros H Hp. unfold coverage_guided, coverage_index, random_walk. fold (unseen (c_seen c) ix p). rewrite (unseen_nil _ _ _ H Hp). cbn [pick_from].
    unfold random_index. destruct (length (p_rhs p) =? 0); cbn [rbind]; [exact I|]. destruct (draw_usize rng (c_rng c) (length (p_rhs p))) as [i r]. cbn [rbind c_rng c_seen].
    repeat split. intros ix' p' i' Hp' Hi'. right. exact (H ix' p' i' Hp' Hi').
  Qed.

  Lemma seen_eval (ev : term -> @coverage R -> res (result str * @coverage R)) (ev' : term -> R -> res (result str * R)) :
    (forall t c, all_seen (c_seen c) -> same_result (ev t c) (ev' t (c_rng c))) ->
    forall e acc c, all_seen (c_seen c) -> same_result (eval_terms ev e acc c) (eval_terms ev' e acc (c_rng c)).
  Proof.
    intro Hev. induction e as [|t e IH]; intros acc c Hc; cbn [eval_terms]; [repeat split; exact Hc|].
    specialize (Hev t c Hc). unfold same_result in Hev. destruct (ev t c) as [[x c1]| |], (ev' t (c_rng c)) as [[y r1]| |]; try contradiction; cbn [rbind]; [|exact I|exact I].
    destruct Hev as (<- & <- & Hc1). destruct x as [w|x]; [apply IH, Hc1|]. repeat split. exact Hc1.
  Qed.

  Lemma seen_traverse fuel : forall n c d, all_seen (c_seen c) ->
    same_result (traverse (coverage_guided rng) (pure_callback f) g fuel n c d) (traverse (random_walk rng) (pure_callback f) g fuel n (c_rng c) d).
  Proof.
    induction fuel as [|fuel IH]; intros n c d Hc; [exact I|]. cbn [traverse]. destruct (find_production g n 0) as [[ix p]|] eqn:Ef; [|repeat split; exact Hc].
    destruct (production_has_no_choice p); [repeat split; exact Hc|].
    assert (Hp : nth_error g ix = Some p) by (destruct (find_production_Some _ _ _ _ _ Ef) as (_ & _ & H); rewrite Nat.sub_0_r in H; exact H).
    pose proof (seen_choose c ix p d Hc Hp) as Hch.
    destruct (coverage_guided rng c ix p d) as [[o c1]| |], (random_walk rng (c_rng c) ix p d) as [[o' r1]| |]; try contradiction; cbn [rbind]; [|exact I].
    destruct Hch as (<- & <- & Hc1). destruct o as [e|]; [|repeat split; exact Hc1].
    match goal with |- same_result (rbind ?a _) (rbind ?b _) => assert (He : same_result a b) end.
    { apply seen_eval; [|exact Hc1]. intros [t|m] c2 Hc2; [repeat split; exact Hc2|]. apply IH, Hc2. }
    match goal with |- same_result (rbind ?a _) (rbind ?b _) => destruct a as [[x c2]| |], b as [[y r2]| |] end; try contradiction; cbn [rbind]; [|exact I|exact I].
    destruct He as (<- & <- & Hc2). destruct x as [w|x]; [|repeat split; exact Hc2]. cbn [pure_callback]. destruct (f n w); [repeat split; exact Hc2|]. apply IH, Hc2.
  Qed.

  Lemma seen_generate fuel c : all_seen (c_seen c) ->
    same_result (generate (coverage_guided rng) (pure_callback f) g fuel c) (generate (random_walk rng) (pure_callback f) g fuel (c_rng c)).
  Proof.
    intro Hc. unfold generate. destruct (terminates fuel g) as [b| |]; cbn [rbind]; [|exact I|exact I]. destruct b; cbn [negb]; [|repeat split; exact Hc].
    destruct g as [|p rest] eqn:Eg; [repeat split; exact Hc|]. rewrite <- Eg in *. destruct (p_lhs p); [repeat split; exact Hc|]. apply seen_traverse, Hc.
  Qed.
End Seen.
