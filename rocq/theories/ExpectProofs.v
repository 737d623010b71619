(** The average number of draws. *)
From Verif Require Export ExpectSpec WalkProofs.
From Coq Require Import Lia.

Lemma sum_const {A} (l : list A) c : list_sum (map (fun _ => c) l) = c * length l.
Proof. induction l as [|x l IH]; [cbn; lia|]. change (list_sum (map (fun _ => c) (x :: l))) with (c + list_sum (map (fun _ : A => c) l)). rewrite IH. cbn [length]. lia. Qed.

Lemma sum_add {A} (F G : A -> nat) l : list_sum (map (fun x => F x + G x) l) = list_sum (map F l) + list_sum (map G l).
Proof. induction l as [|x l IH]; [reflexivity|]. cbn [map list_sum fold_right]. fold (list_sum (map (fun x => F x + G x) l)). rewrite IH. unfold list_sum. lia. Qed.

Lemma sum_scale {A} c (F : A -> nat) l : list_sum (map (fun x => F x * c) l) = list_sum (map F l) * c.
Proof. induction l as [|x l IH]; [reflexivity|]. cbn [map list_sum fold_right]. fold (list_sum (map (fun x => F x * c) l)). rewrite IH. unfold list_sum. lia. Qed.

Lemma sum_le {A} (F G : A -> nat) l : (forall x, In x l -> F x <= G x) -> list_sum (map F l) <= list_sum (map G l).
Proof.
  induction l as [|x l IH]; intro H; [reflexivity|]. cbn [map list_sum fold_right].
  apply Nat.add_le_mono; [apply H; left; reflexivity|]. apply IH. intros; apply H. right; assumption.
Qed.

Lemma sum_flat {A B} (F : B -> nat) (h : A -> list B) l : list_sum (map F (flat_map h l)) = list_sum (map (fun x => list_sum (map F (h x))) l).
Proof. induction l as [|x l IH]; [reflexivity|]. cbn [flat_map]. rewrite map_app, list_sum_app, IH. reflexivity. Qed.

(** Over a multiple of [m] numbers, every remainder comes equally often. *)
Lemma sum_mod_block (F : nat -> nat) m a : 0 < m -> list_sum (map (fun x => F (x mod m)) (seq (a * m) m)) = list_sum (map F (seq 0 m)).
Proof.
  intro Hm. replace (seq (a * m) m) with (map (fun k => a * m + k) (seq 0 m)).
  - rewrite map_map. f_equal. apply map_ext_in. intros k Hk. apply in_seq in Hk. f_equal.
    rewrite Nat.add_comm, Nat.mod_add by lia. apply Nat.mod_small. lia.
  - assert (H : forall k b c, map (fun k => c + k) (seq b k) = seq (c + b) k).
    { induction k as [|k IH]; intros b c; [reflexivity|]. cbn [seq map]. f_equal. rewrite IH. f_equal. lia. }
    rewrite H, Nat.add_0_r. reflexivity.
Qed.

Lemma sum_mod (F : nat -> nat) m : 0 < m -> forall q, list_sum (map (fun x => F (x mod m)) (seq 0 (q * m))) = q * list_sum (map F (seq 0 m)).
Proof.
  intros Hm q. induction q as [|q IH]; [reflexivity|]. replace (S q * m) with (q * m + m) by lia.
  rewrite seq_app, map_app, list_sum_app, IH, Nat.add_0_l, (sum_mod_block F m q Hm). lia.
Qed.

Lemma sum_nth {A} (F : A -> nat) (d : A) l : list_sum (map (fun k => F (nth k l d)) (seq 0 (length l))) = list_sum (map F l).
Proof.
  f_equal. induction l as [|x l IH]; [reflexivity|]. cbn [length seq map nth]. f_equal. rewrite <- seq_shift, map_map. exact IH.
Qed.

Lemma sum_incl {A} (F : A -> nat) l : NoDup l -> forall l', incl l l' -> list_sum (map F l) <= list_sum (map F l').
Proof.
  induction 1 as [|x l Hx Hnd IH]; intros l' Hi; [cbn; lia|].
  destruct (in_split x l' (Hi x (or_introl eq_refl))) as (a & b & ->).
  assert (H : incl l (a ++ b)).
  { intros y Hy. assert (Hy' : In y (a ++ x :: b)) by (apply Hi; right; exact Hy). apply in_app_iff in Hy'. apply in_app_iff.
    destruct Hy' as [Hy'|[->|Hy']]; auto. contradiction. }
  apply IH in H. rewrite map_app, list_sum_app in *. cbn [map list_sum fold_right]. unfold list_sum in *. lia.
Qed.

Lemma skipn_twice {A} (l : list A) : forall a b, skipn a (skipn b l) = skipn (b + a) l.
Proof. induction l as [|x l IH]; intros a b; [rewrite !skipn_nil; reflexivity|]. destruct b as [|b]; [reflexivity|]. apply IH. Qed.

Section Expect.
  Variable g : grammar.
  Variable alts : nat -> production -> list expression.
  Variable bad : error.
  Hypothesis Hne : forall d p, In p g -> choosable p -> alts d p <> [].
  Notation yes := (fun _ _ : str => true).
  Notation wk := (walk g yes alts bad).
  Notation wks := (walks g yes alts bad).

  (** The nonterminals that wait for their expansion, with their depths. *)
  Definition rule_of (n : str) : option production := match find_production g n 0 with Some (_, p) => Some p | None => None end.

  Lemma rule_some n p : rule_of n = Some p <-> first_for g n p.
  Proof.
    unfold rule_of. split.
    - destruct (find_production g n 0) as [[i q]|] eqn:E; [|discriminate]. intro H. injection H as <-. apply find_production_Some in E.
      apply E.
    - intro H. destruct (find_production_first g n p H) as [i E]. rewrite E. reflexivity.
  Qed.
  Lemma rule_none n : rule_of n = None -> ~ has_lhs g n.
  Proof. unfold rule_of. destruct (find_production g n 0) as [[i q]|] eqn:E; [discriminate|]. intros _. exact (find_production_None g n 0 E). Qed.

  Definition names (e : expression) : list str :=
    flat_map (fun t => match t with Nonterminal n => match rule_of n with Some _ => [n] | None => [] end | Terminal _ => [] end) e.
  Definition push (d : nat) (e : expression) (st : list (nat * str)) : list (nat * str) := map (pair d) (names e) ++ st.
  Definition choosableb (p : production) : bool := match p_rhs p with [] => false | [[]] => false | _ => true end.

  Lemma choosableb_spec p : choosableb p = true <-> choosable p.
  Proof. unfold choosableb, choosable. destruct (p_rhs p) as [|[|t e] [|e2 l]]; split; try discriminate; try tauto; intros; try (split; discriminate); destruct H; congruence. Qed.

  (** The number of draws taken, and whether the expansion ends within the numbers. *)
  Fixpoint used (st : list (nat * str)) (s : list nat) : nat * bool :=
    match st with
    | [] => (0, true)
    | (d, n) :: st =>
        match rule_of n with
        | None => (0, true)
        | Some p =>
            if choosableb p then
              match s with
              | [] => (0, false)
              | x :: s => let (k, b) := used (push (d + 1) (nth (x mod length (alts d p)) (alts d p) []) st) s in (S k, b)
              end
            else (0, true)
        end
    end.

  Lemma used_cons d n st s : used ((d, n) :: st) s =
    match rule_of n with
    | None => (0, true)
    | Some p =>
        if choosableb p then
          match s with
          | [] => (0, false)
          | x :: s => let (k, b) := used (push (d + 1) (nth (x mod length (alts d p)) (alts d p) []) st) s in (S k, b)
          end
        else (0, true)
    end.
  Proof. destruct s; reflexivity. Qed.

  Lemma used_late s : forall st, snd (used st s) = false -> fst (used st s) = length s.
  Proof.
    induction s as [|x s IH]; intros [|[d n] st]; cbn [used]; try discriminate; destruct (rule_of n) as [p|]; try discriminate;
      destruct (choosableb p); try discriminate; [reflexivity|].
    specialize (IH (push (d + 1) (nth (x mod length (alts d p)) (alts d p) []) st)).
    destruct (used (push (d + 1) (nth (x mod length (alts d p)) (alts d p) []) st) s) as [k b]. cbn in *. intro Hb. rewrite (IH Hb). reflexivity.
  Qed.

  Lemma nth_mod {A} (l : list A) x a : l <> [] -> nth_error l (x mod length l) = Some (nth (x mod length l) l a).
  Proof. intro H. apply nth_error_nth'. apply Nat.mod_upper_bound. destruct l; [contradiction|discriminate]. Qed.

  (** What ends within the numbers is a walk. *)
  Lemma used_walks m : forall s, length s < m -> forall e d st k, used (push d e st) s = (k, true) ->
    exists ds r s', wks d e ds r /\ gives ds s = true /\ length ds <= length s /\ s' = skipn (length ds) s /\
      ((exists x, r = RErr x /\ k = length ds) \/ (exists w k', r = ROk w /\ used st s' = (k', true) /\ k = length ds + k')).
  Proof.
    induction m as [|m IHm]; intros s Hs; [lia|]. induction e as [|t e IHe]; intros d st k Hu.
    - exists [], (ROk []), s. split; [constructor|]. split; [reflexivity|]. split; [cbn; lia|]. split; [reflexivity|].
      right. exists [], k. repeat split. exact Hu.
    - destruct t as [t|n].
      + destruct (IHe d st k Hu) as (ds & r & s' & H1 & H2 & H3 & H4 & H5). destruct r as [w|x].
        * exists ds, (ROk (t ++ w)), s'. split; [constructor; exact H1|]. repeat split; [assumption..|]. right.
          destruct H5 as [(x & E & _)|(w' & k' & E & H6 & H7)]; [discriminate|]. exists (t ++ w), k'. auto.
        * exists ds, (RErr x), s'. split; [constructor; exact H1|]. repeat split; [assumption..|]. left.
          destruct H5 as [(x' & E & H6)|(w' & k' & E & _)]; [|discriminate]. exists x. auto.
      + unfold push in Hu. cbn [names flat_map] in Hu. fold (names e) in Hu. destruct (rule_of n) as [p|] eqn:Er; cycle 1.
        * destruct (IHe d st k Hu) as (ds & r & s' & H1 & H2 & H3 & H4 & H5). pose proof (wk_undefined g yes alts bad d n (rule_none n Er)) as Hw.
          destruct r as [w|x].
          -- exists ds, (ROk (n ++ w)), s'. split; [change ds with ([] ++ ds); econstructor; eassumption|]. repeat split; [assumption..|]. right.
             destruct H5 as [(x & E & _)|(w' & k' & E & H6 & H7)]; [discriminate|]. exists (n ++ w), k'. auto.
          -- exists ds, (RErr x), s'. split; [change ds with ([] ++ ds); econstructor; eassumption|]. repeat split; [assumption..|]. left.
             destruct H5 as [(x' & E & H6)|(w' & k' & E & _)]; [|discriminate]. exists x. auto.
        * pose proof (proj1 (rule_some n p) Er) as Hf. destruct (first_for_In g n p Hf) as [Hin _].
          cbn [app map] in Hu. change (map (pair d) (names e) ++ st) with (push d e st) in Hu. rewrite used_cons, Er in Hu.
          destruct (choosableb p) eqn:Ec; cycle 1.
          { injection Hu as <-. exists [], (RErr bad), s. split; [|cbn; repeat split; [lia|left; eauto]].
            apply wks_stop. apply wk_bad with p; [exact Hf|]. intro Hc. apply choosableb_spec in Hc. congruence. }
          apply choosableb_spec in Ec. destruct s as [|x s]; [discriminate|]. set (m' := length (alts d p)) in *.
          set (e' := nth (x mod m') (alts d p) []) in *.
          destruct (used (push (d + 1) e' (push d e st)) s) as [k1 b] eqn:E1. injection Hu as <- ->. cbn in Hs.
          assert (Hn : nth_error (alts d p) (x mod m') = Some e') by (apply nth_mod, Hne; assumption).
          destruct (IHm s ltac:(lia) e' (d + 1) (push d e st) k1 E1) as (ds & r & s' & H1 & H2 & H3 & H4 & H5). destruct r as [w|y].
          -- destruct H5 as [(x' & E & _)|(w' & k' & E & H6 & H7)]; [discriminate|]. injection E as <-.
             assert (Hs' : length s' < m) by (subst s'; rewrite skipn_length; lia).
             destruct (IHm s' Hs' e d st k' H6) as (ds2 & r2 & s2 & G1 & G2 & G3 & G4 & G5).
             assert (Hw : wk d n ((x mod m', m') :: ds) (ROk w)) by (exact (wk_accept g yes alts bad d n p (x mod m') e' ds w Hf Ec Hn H1 eq_refl)).
             assert (Hg : forall a b c, gives a b = true -> length a <= length b -> gives c (skipn (length a) b) = true -> gives (a ++ c) b = true).
             { clear. induction a as [|[k m] a IH]; intros b c Ha Hl Hc; [exact Hc|]. destruct b as [|x b]; [discriminate|]. cbn in *.
               apply andb_true_iff in Ha. destruct Ha as [Ha1 Ha2]. rewrite Ha1. cbn. apply IH; [exact Ha2|lia|exact Hc]. }
             assert (Hl : length s' = length s - length ds) by (subst s'; apply skipn_length).
             assert (Gg : gives (((x mod m', m') :: ds) ++ ds2) (x :: s) = true).
             { cbn [app gives]. rewrite Nat.eqb_refl. cbn [andb]. apply Hg; [exact H2|exact H3|rewrite <- H4; exact G2]. }
             assert (Gl : length (((x mod m', m') :: ds) ++ ds2) <= length (x :: s)) by (rewrite app_length; cbn [length]; unfold draw in *; lia).
             assert (Gs : s2 = skipn (length (((x mod m', m') :: ds) ++ ds2)) (x :: s)).
             { rewrite app_length. cbn [length Nat.add skipn]. rewrite G4, H4. apply skipn_twice. }
             destruct r2 as [w2|y].
             ++ exists (((x mod m', m') :: ds) ++ ds2), (ROk (w ++ w2)), s2. split; [econstructor; eassumption|]. repeat split; [assumption..|].
                right. destruct G5 as [(x' & E & _)|(w' & k'' & E & G6 & G7)]; [discriminate|]. exists (w ++ w2), k''. repeat split; [exact G6|].
                rewrite app_length. cbn [length]. unfold draw in *. lia.
             ++ exists (((x mod m', m') :: ds) ++ ds2), (RErr y), s2. split; [econstructor; eassumption|]. repeat split; [assumption..|].
                left. destruct G5 as [(x' & E & G6)|(w' & k'' & E & _)]; [|discriminate]. exists y. split; [reflexivity|].
                rewrite app_length. cbn [length]. unfold draw in *. lia.
          -- destruct H5 as [(x' & E & H6)|(w' & k' & E & _)]; [|discriminate].
             exists ((x mod m', m') :: ds), (RErr y), s'. split.
             ++ apply wks_stop. exact (wk_error g yes alts bad d n p (x mod m') e' ds y Hf Ec Hn H1).
             ++ cbn [gives length skipn]. rewrite Nat.eqb_refl, H2. repeat split; [lia|exact H4|]. left. exists y. split; [reflexivity|lia].
  Qed.

  Lemma used_walk d n s k : used [(d, n)] s = (k, true) -> rule_of n <> None -> exists ds r, wk d n ds r /\ gives ds s = true /\ length ds = k /\ k <= length s.
  Proof.
    intros Hu Hn. assert (Hp : push d [Nonterminal n] [] = [(d, n)]).
    { unfold push, names. cbn. destruct (rule_of n); [reflexivity|contradiction]. }
    rewrite <- Hp in Hu. destruct (used_walks (S (length s)) s ltac:(lia) _ _ _ _ Hu) as (ds & r & s' & H1 & H2 & H3 & _ & H5).
    assert (Hk : k = length ds).
    { destruct H5 as [(x & _ & H5)|(w & k' & _ & H5 & H6)]; [exact H5|]. cbn [used] in H5. destruct s'; injection H5 as <-; lia. }
    inversion H1 as [| | |d0 n0 e0 ds1 ds2 v w Hw Hws|d0 n0 e0 ds1 ds2 v x Hw Hws|d0 n0 e0 ds1 x Hw]; subst.
    - inversion Hws; subst. rewrite app_nil_r in *. exists ds1, (ROk v). auto.
    - inversion Hws.
    - exists ds, (RErr x). auto.
  Qed.

  (** ** The sum over all lists *)
  Variable base : nat.
  Hypothesis Hdiv : forall d p, In p g -> choosable p -> Nat.divide (length (alts d p)) base.
  Variable K : nat.
  Variable W : nat -> str -> nat.
  Hypothesis Hest : estimate g alts K W.

  Definition total (st : list (nat * str)) : nat := list_sum (map (fun dn => W (fst dn) (snd dn)) st).

  Lemma total_push d e st : total (push d e st) <= load (W d) e + total st.
  Proof.
    unfold push, total. rewrite map_app, list_sum_app. apply Nat.add_le_mono_r. unfold load, names.
    induction e as [|t e IH]; [cbn; lia|]. cbn [flat_map map list_sum fold_right].
    destruct t as [s|n]; [exact IH|]. destruct (rule_of n); cbn [app map list_sum fold_right fst snd]; unfold list_sum in *; lia.
  Qed.

  Lemma draws_le len : forall st, K * list_sum (map (fun s => fst (used st s)) (scripts base len)) <= total st * base ^ len.
  Proof.
    induction len as [|len IH]; intro st.
    - cbn [scripts map list_sum fold_right]. replace (fst (used st [])) with 0; [lia|].
      destruct st as [|[d n] st]; cbn; [reflexivity|]. destruct (rule_of n) as [p|]; [destruct (choosableb p)|]; reflexivity.
    - assert (Hzero : (forall s, fst (used st s) = 0) -> K * list_sum (map (fun s => fst (used st s)) (scripts base (S len))) <= total st * base ^ S len).
      { intro H. rewrite (map_ext _ (fun _ => 0) H), sum_const. lia. }
      destruct st as [|[d n] st]; [apply Hzero; intros [|x s]; reflexivity|].
      destruct (rule_of n) as [p|] eqn:Er; [|apply Hzero; intros [|x s]; cbn [used]; rewrite Er; reflexivity].
      destruct (choosableb p) eqn:Ec; [|apply Hzero; intros [|x s]; cbn [used]; rewrite Er, Ec; reflexivity].
      apply choosableb_spec in Ec. pose proof (proj1 (rule_some n p) Er) as Hf. destruct (first_for_In g n p Hf) as [Hin _].
      destruct (Hdiv d p Hin Ec) as [q Hq]. pose proof (Hest d n p Hf Ec) as He. pose proof (Hne d p Hin Ec) as Hn0.
      set (m := length (alts d p)) in *. set (B := base ^ len).
      assert (Hm : 0 < m) by (unfold m; destruct (alts d p); [contradiction|cbn; lia]).
      set (next := fun k => push (d + 1) (nth k (alts d p) []) st).
      cbn [scripts]. rewrite sum_flat.
      rewrite (map_ext _ (fun x => B + list_sum (map (fun s => fst (used (next (x mod m)) s)) (scripts base len)))).
      + rewrite sum_add, sum_const, seq_length, Nat.mul_add_distr_l.
        assert (H : K * list_sum (map (fun x => list_sum (map (fun s => fst (used (next (x mod m)) s)) (scripts base len))) (seq 0 base))
          <= list_sum (map (fun x => (load (W (d + 1)) (nth (x mod m) (alts d p) []) + total st) * B) (seq 0 base))).
        { rewrite Nat.mul_comm, <- sum_scale. apply sum_le. intros x _. rewrite Nat.mul_comm. eapply Nat.le_trans; [apply IH|].
          fold B. apply Nat.mul_le_mono_r. apply total_push. }
        rewrite Hq in H at 2. rewrite (sum_mod (fun k => (load (W (d + 1)) (nth k (alts d p) []) + total st) * B) m Hm q) in H.
        rewrite sum_scale, sum_add, sum_const, seq_length in H.
        assert (Hs : list_sum (map (fun k => load (W (d + 1)) (nth k (alts d p) [])) (seq 0 m)) = list_sum (map (load (W (d + 1))) (alts d p))) by apply sum_nth.
        rewrite Hs in H.
        change (total ((d, n) :: st)) with (W d n + total st). cbn [Nat.pow]. fold B.
        set (L := list_sum (map (load (W (d + 1))) (alts d p))) in *. clearbody L B next.
        assert (Hfin : (q * B) * (K * m + L + total st * m) <= (q * B) * (W d n * m + total st * m)) by (apply Nat.mul_le_mono_l; lia).
        set (X := list_sum (map (fun x => list_sum (map (fun s => fst (used (next (x mod m)) s)) (scripts base len))) (seq 0 base))) in *.
        clearbody X. rewrite Hq. nia.
      + intro x. rewrite map_map. assert (HB : B = list_sum (map (fun _ => 1) (scripts base len))) by (rewrite sum_const, scripts_length; unfold B; lia).
        rewrite HB, <- sum_add. f_equal. apply map_ext. intro s. rewrite used_cons, Er, (proj2 (choosableb_spec p) Ec). fold m. fold (next (x mod m)).
        destruct (used (next (x mod m)) s). reflexivity.
  Qed.

  (** ** From the machine to the generator *)
  Lemma average run n len : rule_of n <> None ->
    (forall f r l, (exists fuel, run f fuel = Ok (r, l)) <-> (exists ds, wk 0 n ds r /\ length ds = l /\ follows f 0 ds)) ->
    average_draws run base len K (W 0 n).
  Proof.
    intros Hn Hrun R late HR Hlate HinR Hinl.
    pose proof (draws_le len [(0, n)]) as Hall. unfold total in Hall. cbn [map list_sum fold_right fst snd] in Hall. rewrite Nat.add_0_r in Hall.
    eapply Nat.le_trans; [|exact Hall]. apply Nat.mul_le_mono_l.
    set (F := fun s => fst (used [(0, n)] s)).
    assert (Hsrc : forall s ds, length ds <= length s -> gives ds s = true <-> follows (source s) 0 ds).
    { intros s ds H. apply gives_follows; [exact H|reflexivity]. }
    assert (H1 : forall s l, In (s, l) R -> l <= F s).
    { intros s l Hs. destruct (HinR s l Hs) as (Hsc & Hl & fuel & r & E). apply scripts_spec in Hsc. destruct Hsc as [Hsl _].
      destruct (proj1 (Hrun (source s) r l) (ex_intro _ fuel E)) as (ds & Hw & Hd & Hf). unfold F.
      destruct (used [(0, n)] s) as [k b] eqn:Eu. cbn [fst]. destruct b.
      - destruct (used_walk 0 n s k Eu Hn) as (ds' & r' & Hw' & Hg & Hk & Hks). apply Hsrc in Hg; [|unfold draw in *; lia].
        destruct (proj1 (walk_unique g yes alts bad (source s)) 0 n ds r Hw 0 ds' r' Hw' Hf Hg) as [<- _]. unfold draw in *. lia.
      - pose proof (used_late s [(0, n)]) as Hu. rewrite Eu in Hu. cbn in Hu. rewrite (Hu eq_refl). lia. }
    assert (H2 : forall s, In s late -> F s = len).
    { intros s Hs. destruct (Hinl s Hs) as [Hsc Hno]. apply scripts_spec in Hsc. destruct Hsc as [Hsl _]. unfold F.
      destruct (used [(0, n)] s) as [k b] eqn:Eu. destruct b.
      - exfalso. apply Hno. destruct (used_walk 0 n s k Eu Hn) as (ds' & r' & Hw' & Hg & Hk & Hks). apply Hsrc in Hg; [|unfold draw in *; lia].
        destruct (proj2 (Hrun (source s) r' k) (ex_intro _ ds' (conj Hw' (conj Hk Hg)))) as [fuel E]. exists fuel, r', k. split; [lia|exact E].
      - pose proof (used_late s [(0, n)]) as Hu. rewrite Eu in Hu. cbn in Hu. cbn [fst]. rewrite (Hu eq_refl). exact Hsl. }
    assert (H3 : list_sum (map snd R) + len * length late <= list_sum (map F (map fst R ++ late))).
    { rewrite map_app, list_sum_app, map_map. apply Nat.add_le_mono.
      - apply sum_le. intros [s l] Hs. apply H1, Hs.
      - rewrite <- (sum_const late len). apply sum_le. intros s Hs. rewrite (H2 s Hs). lia. }
    eapply Nat.le_trans; [exact H3|]. apply (sum_incl F).
    - apply NoDup_app'; [exact HR|exact Hlate|]. intros s Hs Hs'. apply in_map_iff in Hs. destruct Hs as ([s0 l] & <- & Hs). cbn in *.
      destruct (HinR s0 l Hs) as (_ & Hl & fuel & r & E). destruct (Hinl s0 Hs') as [_ Hno]. apply Hno. exists fuel, r, l. auto.
    - intros s Hs. apply in_app_iff in Hs. destruct Hs as [Hs|Hs].
      + apply in_map_iff in Hs. destruct Hs as ([s0 l] & <- & Hs). apply (HinR s0 l Hs).
      + apply (Hinl s Hs).
  Qed.
End Expect.
