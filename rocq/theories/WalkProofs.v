(** The generator on a source of numbers follows [walk] (WalkSpec.v), and the share of the sources
    that take a given walk. *)
From Verif Require Export WalkSpec TraceProofs StrategyExact.
From Coq Require Import Lia Permutation.

(** A source of numbers as a random stream; the state is the position. *)
Definition stream_draw (f : nat -> nat) (i n : nat) : nat * nat := (f i mod n, S i).
Definition stream_draw_u32 (f : nat -> nat) (i : nat) (n : N) : N * nat := ((N.of_nat (f i) mod n)%N, S i).
Lemma stream_draw_lt f i n : 0 < n -> fst (stream_draw f i n) < n.
Proof. intro H. apply Nat.mod_upper_bound. lia. Qed.
Lemma stream_draw_u32_lt f i n : (0 < n)%N -> (fst (stream_draw_u32 f i n) < n)%N.
Proof. intro H. apply N.mod_lt. lia. Qed.
Definition stream_rng (f : nat -> nat) : rng_ops nat :=
  mkRng _ (stream_draw f) (stream_draw_u32 f) (stream_draw_lt f) (stream_draw_u32_lt f).

Lemma follows_app f ds : forall i ds', follows f i (ds ++ ds') <-> follows f i ds /\ follows f (i + length ds) ds'.
Proof.
  induction ds as [|[k m] ds IH]; intros i ds'; cbn [app follows length].
  - rewrite Nat.add_0_r. tauto.
  - rewrite IH. replace (S i + length ds) with (i + S (length ds)) by lia. tauto.
Qed.

Section Exact.
  Variable g : grammar.
  Variable ok : str -> str -> bool.
  Variable alts : nat -> production -> list expression.
  Variable f : nat -> nat.
  Variable choose : nat -> nat -> production -> nat -> res (option expression * nat).
  (** One draw decides the alternative. *)
  Hypothesis Hone : forall i addr p d, In p g -> p_rhs p <> [] ->
    exists e, nth_error (alts d p) (f i mod length (alts d p)) = Some e /\ choose i addr p d = Ok (Some e, S i).

  Notation wk := (walk g ok alts bad_error).
  Notation wks := (walks g ok alts bad_error).
  Notation trav := (traverse choose (pure_callback ok) g).

  Definition ev (fuel : nat) (d : nat) (t : term) (st : nat) : res (result str * nat) :=
    match t with Nonterminal nt => trav fuel nt st d | Terminal s => Ok (ROk s, st) end.

  Definition with_acc (acc : str) (r : result str) : result str :=
    match r with ROk w => ROk (acc ++ w) | RErr x => RErr x end.

  Lemma eval_walks fuel d :
    (forall n i r i', trav fuel n i d = Ok (r, i') -> exists ds, wk d n ds r /\ i' = i + length ds /\ follows f i ds) ->
    forall e acc i r i', eval_terms (ev fuel d) e acc i = Ok (r, i') ->
      exists ds r', wks d e ds r' /\ r = with_acc acc r' /\ i' = i + length ds /\ follows f i ds.
  Proof.
    intro Hn. induction e as [|t e IH]; intros acc i r i' H; cbn [eval_terms] in H.
    - injection H as <- <-. exists [], (ROk []). cbn. rewrite app_nil_r. repeat split; [constructor|lia].
    - destruct t as [s|n].
      + cbn [ev rbind] in H. destruct (IH _ _ _ _ H) as (ds & [w|x] & Hw & -> & Hl & Hf).
        * exists ds, (ROk (s ++ w)). cbn. rewrite app_assoc. repeat split; try assumption. constructor; assumption.
        * exists ds, (RErr x). repeat split; try assumption. constructor; assumption.
      + cbn [ev] in H. destruct (trav fuel n i d) as [[r1 i1]| |] eqn:E; cbn [rbind] in H; try discriminate.
        destruct (Hn _ _ _ _ E) as (ds & Hw & -> & Hf). destruct r1 as [v|x].
        * destruct (IH _ _ _ _ H) as (ds' & [w|x] & Hw' & -> & -> & Hf').
          -- exists (ds ++ ds'), (ROk (v ++ w)). cbn. rewrite app_assoc, app_length, Nat.add_assoc, follows_app.
             repeat split; try assumption. constructor; assumption.
          -- exists (ds ++ ds'), (RErr x). cbn. rewrite app_length, Nat.add_assoc, follows_app.
             repeat split; try assumption. econstructor; eassumption.
        * injection H as <- <-. exists ds, (RErr x). repeat split; try assumption. constructor; assumption.
  Qed.

  Lemma traverse_walk fuel : forall n i d r i', trav fuel n i d = Ok (r, i') ->
    exists ds, wk d n ds r /\ i' = i + length ds /\ follows f i ds.
  Proof.
    induction fuel as [|fuel IH]; intros n i d r i' H; [discriminate|]. cbn [traverse] in H.
    destruct (find_production g n 0) as [[ix p]|] eqn:Ef.
    2:{ injection H as <- <-. exists []. cbn. repeat split; [|lia]. constructor. eapply find_production_None; exact Ef. }
    assert (Hp : first_for g n p) by (apply find_production_Some in Ef; apply Ef).
    destruct (production_has_no_choice p) eqn:Ep.
    { injection H as <- <-. exists []. cbn. repeat split; [|lia]. apply (wk_bad _ _ _ _ _ _ p); [assumption|].
      apply not_choosable_spec. assumption. }
    apply choosable_spec in Ep. destruct (Hone i ix p d (proj1 (first_for_In _ _ _ Hp)) (proj1 Ep)) as (e & Hpk & Hc). rewrite Hc in H. cbn [rbind] in H.
    change (eval_terms _ e [] (S i)) with (eval_terms (ev fuel (d + 1)) e [] (S i)) in H.
    destruct (eval_terms (ev fuel (d + 1)) e [] (S i)) as [[r1 i1]| |] eqn:Ee; cbn [rbind] in H; try discriminate.
    destruct (eval_walks fuel (d + 1) (fun n i r i' H => IH n i (d + 1) r i' H) _ _ _ _ _ Ee) as (ds & r' & Hw & -> & -> & Hf).
    destruct r' as [w|x]; cbn [with_acc app] in H.
    - cbn [pure_callback] in H. destruct (ok n w) eqn:Eo.
      + injection H as <- <-. exists ((f i mod length (alts d p), length (alts d p)) :: ds). cbn [length follows].
        repeat split; [|lia|assumption]. eapply wk_accept; eassumption.
      + destruct (IH _ _ _ _ _ H) as (ds' & Hw' & -> & Hf').
        exists ((f i mod length (alts d p), length (alts d p)) :: ds ++ ds'). cbn [length follows]. rewrite app_length.
        repeat split; [|lia|]. eapply wk_reject; eassumption. apply follows_app. auto.
    - injection H as <- <-. exists ((f i mod length (alts d p), length (alts d p)) :: ds). cbn [length follows].
      repeat split; [|lia|assumption]. eapply wk_error; eassumption.
  Qed.

  Lemma walk_traverse :
    (forall d n ds r, wk d n ds r -> forall fuel i, length ds < fuel -> follows f i ds ->
       trav fuel n i d = Ok (r, i + length ds)) /\
    (forall d e ds r, wks d e ds r -> forall fuel acc i, length ds < fuel -> follows f i ds ->
       eval_terms (ev fuel d) e acc i = Ok (with_acc acc r, i + length ds)).
  Proof.
    assert (Hstep : forall d n p k e fuel i, first_for g n p -> choosable p -> nth_error (alts d p) k = Some e -> f i mod length (alts d p) = k ->
      trav (S fuel) n i d =
        (let* (r, st) := eval_terms (ev fuel (d + 1)) e [] (S i) in
         match r with RErr x => Ok (RErr x, st)
                    | ROk s => let '(b, st) := pure_callback ok st n s in if b then Ok (ROk s, st) else trav fuel n st d end)).
    { intros d n p k e fuel i Hp Hc Hpk Hk. cbn [traverse]. destruct (find_production_first g n p Hp) as [ix ->].
      apply choosable_spec in Hc. rewrite Hc. apply choosable_spec in Hc.
      destruct (Hone i ix p d (proj1 (first_for_In _ _ _ Hp)) (proj1 Hc)) as (e' & Hpk' & ->). rewrite Hk in Hpk'. rewrite Hpk in Hpk'. injection Hpk' as <-.
      reflexivity. }
    apply walk_mutind.
    - intros d n Hn [|fuel] i Hk _; [lia|]. cbn [traverse length].
      rewrite find_production_undefined by assumption. rewrite Nat.add_0_r. reflexivity.
    - intros d n p Hp Hc [|fuel] i Hk _; [lia|]. cbn [traverse length].
      destruct (find_production_first g n p Hp) as [ix ->]. apply not_choosable_spec in Hc. rewrite Hc, Nat.add_0_r. reflexivity.
    - intros d n p k e ds x Hp Hc Hpk _ IH [|fuel] i Hk [Hf1 Hf2]; [lia|]. cbn [length] in Hk.
      rewrite (Hstep _ _ _ _ _ _ _ Hp Hc Hpk Hf1), IH by (assumption || lia). cbn [rbind with_acc length]. do 2 f_equal. lia.
    - intros d n p k e ds w Hp Hc Hpk _ IH Ho [|fuel] i Hk [Hf1 Hf2]; [lia|]. cbn [length] in Hk.
      rewrite (Hstep _ _ _ _ _ _ _ Hp Hc Hpk Hf1), IH by (assumption || lia). cbn [rbind with_acc length pure_callback app].
      rewrite Ho. do 2 f_equal. lia.
    - intros d n p k e ds w ds' r Hp Hc Hpk _ IH Ho _ IH' [|fuel] i Hk [Hf1 Hf2]; [lia|].
      cbn [length] in Hk. rewrite app_length in Hk.
      apply follows_app in Hf2. destruct Hf2 as [Hf2 Hf3].
      rewrite (Hstep _ _ _ _ _ _ _ Hp Hc Hpk Hf1), IH by (assumption || lia). cbn [rbind with_acc length pure_callback app].
      rewrite Ho, IH' by (assumption || lia). rewrite app_length. do 2 f_equal. lia.
    - intros d fuel acc i _ _. cbn. rewrite app_nil_r, Nat.add_0_r. reflexivity.
    - intros d s e ds w _ IH fuel acc i Hk Hf. cbn [eval_terms ev rbind].
      rewrite IH by assumption. cbn. rewrite app_assoc. reflexivity.
    - intros d s e ds x _ IH fuel acc i Hk Hf. cbn [eval_terms ev rbind].
      rewrite IH by assumption. reflexivity.
    - intros d n e ds ds' v w _ IH _ IH' fuel acc i Hk Hf. rewrite app_length in Hk.
      apply follows_app in Hf. destruct Hf as [Hf Hf']. cbn [eval_terms ev]. rewrite IH by (assumption || lia). cbn [rbind].
      rewrite IH' by (assumption || lia). cbn. rewrite app_assoc, app_length, Nat.add_assoc. reflexivity.
    - intros d n e ds ds' v x _ IH _ IH' fuel acc i Hk Hf. rewrite app_length in Hk.
      apply follows_app in Hf. destruct Hf as [Hf Hf']. cbn [eval_terms ev]. rewrite IH by (assumption || lia). cbn [rbind].
      rewrite IH' by (assumption || lia). cbn. rewrite app_length, Nat.add_assoc. reflexivity.
    - intros d n e ds x _ IH fuel acc i Hk Hf. cbn [eval_terms ev]. rewrite IH by assumption. reflexivity.
  Qed.

  Lemma walk_decidable n r len : (exists ds, wk 0 n ds r /\ length ds <= len /\ follows f 0 ds) \/
    ~ (exists ds, wk 0 n ds r /\ length ds <= len /\ follows f 0 ds).
  Proof.
    destruct (trav (S len) n 0 0) as [[r' l]| |] eqn:E.
    - destruct (traverse_walk _ _ _ _ _ _ E) as (ds & Hw & Hl & Hf). cbn in Hl.
      assert (Hr : {r' = r} + {r' <> r}).
      { assert (Hs : forall a b : str, {a = b} + {a <> b}) by (apply list_eq_dec; apply N.eq_dec).
        decide equality. decide equality. }
      destruct Hr as [->|Hr], (Nat.le_gt_cases l len) as [Hle|Hle].
      + left. exists ds. rewrite <- Hl. auto.
      + right. intros (ds' & Hw' & Hl' & Hf'). rewrite (proj1 walk_traverse _ _ _ _ Hw') in E by (assumption || lia). injection E as E. lia.
      + right. intros (ds' & Hw' & Hl' & Hf'). rewrite (proj1 walk_traverse _ _ _ _ Hw') in E by (assumption || lia). congruence.
      + right. intros (ds' & Hw' & Hl' & Hf'). rewrite (proj1 walk_traverse _ _ _ _ Hw') in E by (assumption || lia). congruence.
    - right. intros (ds' & Hw' & Hl' & Hf'). rewrite (proj1 walk_traverse _ _ _ _ Hw') in E by (assumption || lia). discriminate.
    - right. intros (ds' & Hw' & Hl' & Hf'). rewrite (proj1 walk_traverse _ _ _ _ Hw') in E by (assumption || lia). discriminate.
  Qed.

  (** The generator returns [r] after [l] draws exactly if the source takes a walk to [r]. *)
  Lemma generate_walk p rest n r l fuel0 : g = p :: rest -> p_lhs p = Nonterminal n -> terminates fuel0 g = Ok true ->
    (exists fuel, generate choose (pure_callback ok) g fuel 0 = Ok (r, l)) <->
    (exists ds, wk 0 n ds r /\ length ds = l /\ follows f 0 ds).
  Proof.
    intros Eg Hl Ht. unfold generate. split.
    - intros [fuel H]. destruct (terminates fuel g) as [b| |] eqn:E; cbn [rbind] in H; try discriminate.
      assert (b = true) as ->.
      { pose proof (terminates_mono g _ (Nat.max fuel fuel0) _ E (Nat.le_max_l _ _)) as H1.
        pose proof (terminates_mono g _ (Nat.max fuel fuel0) _ Ht (Nat.le_max_r _ _)) as H2. congruence. }
      cbn [negb] in H. rewrite Eg, Hl in H. rewrite <- Eg in H. destruct (traverse_walk _ _ _ _ _ _ H) as (ds & H1 & H2 & H3).
      exists ds. auto.
    - intros (ds & Hw & <- & Hf). exists (Nat.max fuel0 (S (length ds))).
      rewrite (terminates_mono g _ (Nat.max fuel0 (S (length ds))) _ Ht (Nat.le_max_l _ _)). cbn [rbind negb].
      rewrite Eg, Hl. rewrite <- Eg. apply (proj1 walk_traverse _ _ _ _ Hw _ 0); [lia|assumption].
  Qed.
End Exact.

(** ** At most one walk is taken *)

Section Unique.
  Variable g : grammar.
  Variable ok : str -> str -> bool.
  Variable alts : nat -> production -> list expression.
  Variable bad : error.
  Variable f : nat -> nat.

  Lemma first_for_unique n p q : first_for g n p -> first_for g n q -> p = q.
  Proof.
    intros Hp Hq. apply find_production_first in Hp. apply find_production_first in Hq.
    destruct Hp as [i Hp], Hq as [j Hq]. congruence.
  Qed.

  Lemma first_defined n p : first_for g n p -> ~ has_lhs g n -> False.
  Proof. intros H Hn. apply Hn. eapply first_for_has_lhs; exact H. Qed.

  Ltac dup := try solve [exfalso; eauto using first_defined];
    repeat match goal with
    | H1 : first_for g ?n ?p, H2 : first_for g ?n ?q |- _ =>
        first [constr_eq p q; clear H2 | pose proof (first_for_unique _ _ _ H1 H2); subst q; clear H2]
    end; try contradiction.

  Ltac same_pick := match goal with
    | H1 : nth_error (alts ?d ?p) ?k = Some ?e, H2 : nth_error (alts ?d ?p) ?k = Some ?e' |- _ =>
        first [constr_eq e e'; clear H2 | assert (e' = e) by congruence; subst e'; clear H2]
    end.

  Lemma walk_unique :
    (forall d n ds r, walk g ok alts bad d n ds r -> forall i ds' r', walk g ok alts bad d n ds' r' ->
       follows f i ds -> follows f i ds' -> ds = ds' /\ r = r') /\
    (forall d e ds r, walks g ok alts bad d e ds r -> forall i ds' r', walks g ok alts bad d e ds' r' ->
       follows f i ds -> follows f i ds' -> ds = ds' /\ r = r').
  Proof.
    apply walk_mutind.
    - intros d n Hn i ds' r' H _ _. inversion H; subst; dup. auto.
    - intros d n p Hp Hc i ds' r' H _ _. inversion H; subst; dup. auto.
    - intros d n p k e ds x Hp Hc Hk Hw IH i ds' r' H [<- F2] F'. inversion H; subst; dup; cbn [follows] in F';
        destruct F' as [<- F']; same_pick; try (apply follows_app in F'; destruct F' as [F' F3']);
        destruct (IH (S i) _ _ ltac:(eassumption) F2 F') as [<- E]; try discriminate.
      injection E as <-. auto.
    - intros d n p k e ds w Hp Hc Hk Hw IH Ho i ds' r' H [<- F2] F'. inversion H; subst; dup; cbn [follows] in F';
        destruct F' as [<- F']; same_pick; try (apply follows_app in F'; destruct F' as [F' F3']);
        destruct (IH (S i) _ _ ltac:(eassumption) F2 F') as [<- E]; try discriminate; injection E as <-; [auto|congruence].
    - intros d n p k e ds w ds2 r Hp Hc Hk Hw IH Ho Hw2 IH2 i ds' r' H [<- F2] F'.
      apply follows_app in F2. destruct F2 as [F2 F3].
      inversion H; subst; dup; cbn [follows] in F'; destruct F' as [<- F']; same_pick;
        try (apply follows_app in F'; destruct F' as [F' F3']);
        destruct (IH (S i) _ _ ltac:(eassumption) F2 F') as [<- E]; try discriminate; injection E as <-; [congruence|].
      destruct (IH2 _ _ _ ltac:(eassumption) F3 F3') as [<- <-]. auto.
    - intros d i ds' r' H _ _. inversion H; subst. auto.
    - intros d s e ds w Hw IH i ds' r' H F F'. inversion H; subst;
        destruct (IH i _ _ ltac:(eassumption) F F') as [<- E]; try discriminate. injection E as <-. auto.
    - intros d s e ds w Hw IH i ds' r' H F F'. inversion H; subst;
        destruct (IH i _ _ ltac:(eassumption) F F') as [<- E]; try discriminate. injection E as <-. auto.
    - intros d n e ds ds2 v w Hw IH Hw2 IH2 i ds' r' H F F'. apply follows_app in F. destruct F as [F1 F2].
      inversion H; subst; try (apply follows_app in F'; destruct F' as [F' F2']);
        destruct (IH i _ _ ltac:(eassumption) F1 F') as [<- E]; try discriminate; injection E as <-;
        destruct (IH2 _ _ _ ltac:(eassumption) F2 F2') as [<- E]; try discriminate. injection E as <-. auto.
    - intros d n e ds ds2 v w Hw IH Hw2 IH2 i ds' r' H F F'. apply follows_app in F. destruct F as [F1 F2].
      inversion H; subst; try (apply follows_app in F'; destruct F' as [F' F2']);
        destruct (IH i _ _ ltac:(eassumption) F1 F') as [<- E]; try discriminate; injection E as <-;
        destruct (IH2 _ _ _ ltac:(eassumption) F2 F2') as [<- E]; try discriminate. injection E as <-. auto.
    - intros d n e ds x Hw IH i ds' r' H F F'. inversion H; subst; try (apply follows_app in F'; destruct F' as [F' F2']);
        destruct (IH i _ _ ltac:(eassumption) F F') as [<- E]; try discriminate. auto.
  Qed.
End Unique.

(** ** Counting *)

Lemma gives_follows ds : forall s i h, length ds <= length s -> (forall j, h (i + j) = nth j s 0) ->
  gives ds s = true <-> follows h i ds.
Proof.
  induction ds as [|[k m] ds IH]; intros s i h Hl Hh; cbn [gives follows]; [tauto|].
  destruct s as [|x s]; [cbn in Hl; lia|]. rewrite andb_true_iff, Nat.eqb_eq.
  pose proof (Hh 0) as H0. rewrite Nat.add_0_r in H0. cbn in H0. rewrite H0.
  rewrite (IH s (S i) h); [reflexivity|cbn in Hl; lia|]. intro j. pose proof (Hh (S j)) as H1. cbn [nth] in H1. rewrite <- H1. f_equal. lia.
Qed.

Lemma scripts_spec K L : forall s, In s (scripts K L) <-> length s = L /\ forall x, In x s -> x < K.
Proof.
  induction L as [|L IH]; intro s; cbn [scripts].
  - split; [intros [<-|[]]; split; [reflexivity|intros x []]|]. intros [H _]. destruct s; [left; reflexivity|discriminate].
  - rewrite in_flat_map. split.
    + intros (x & Hx & Hs). apply in_seq in Hx. apply in_map_iff in Hs. destruct Hs as (s' & <- & Hs). apply IH in Hs.
      destruct Hs as [<- Hs]. split; [reflexivity|]. intros y [<-|Hy]; [lia|auto].
    + intros [Hl Hs]. destruct s as [|x s]; [discriminate|]. exists x. split.
      * apply in_seq. specialize (Hs x (or_introl eq_refl)). lia.
      * apply in_map. apply IH. split; [cbn in Hl; lia|]. intros; apply Hs; right; assumption.
Qed.

Lemma NoDup_app' {A} (l l' : list A) : NoDup l -> NoDup l' -> (forall x, In x l -> ~ In x l') -> NoDup (l ++ l').
Proof.
  intros H H' Hd. induction H as [|a l Ha Hl IH]; [assumption|]. cbn. constructor.
  - intro Hin. apply in_app_or in Hin. destruct Hin; [auto|]. exact (Hd a (or_introl eq_refl) H).
  - apply IH. intros x Hx. apply Hd. right; assumption.
Qed.

Lemma scripts_NoDup K L : NoDup (scripts K L).
Proof.
  induction L as [|L IH]; cbn [scripts]; [repeat constructor; intros []|].
  pose proof (seq_NoDup K 0) as Hd. induction Hd as [|x l Hx Hl IHl]; cbn [flat_map]; [constructor|].
  apply NoDup_app'; [|assumption|].
  - apply FinFun.Injective_map_NoDup; [|assumption]. intros a b E. injection E as <-. reflexivity.
  - intros s Hs Hs'. apply in_map_iff in Hs. destruct Hs as (s1 & <- & _). apply in_flat_map in Hs'.
    destruct Hs' as (y & Hy & Hs'). apply in_map_iff in Hs'. destruct Hs' as (s2 & E & _). injection E as <- _. contradiction.
Qed.

Lemma scripts_length K L : length (scripts K L) = K ^ L.
Proof.
  induction L as [|L IH]; [reflexivity|]. cbn [scripts Nat.pow].
  rewrite <- (seq_length K 0) at 2. generalize (seq 0 K) as l. induction l as [|x l IHl]; [reflexivity|].
  cbn [flat_map length]. rewrite app_length, map_length, IH, IHl. reflexivity.
Qed.

Lemma count_app {A} (t : A -> bool) l l' : count t (l ++ l') = count t l + count t l'.
Proof. unfold count. rewrite filter_app, app_length. reflexivity. Qed.

Lemma count_residue m k q : k < m -> forall a, count (fun x => Nat.eqb (x mod m) k) (seq (a * m) (q * m)) = q.
Proof.
  intro Hk. induction q as [|q IH]; intro a; [reflexivity|]. cbn [Nat.mul]. rewrite seq_app, count_app.
  replace (a * m + m) with (S a * m) by lia. rewrite IH.
  cut (count (fun x => x mod m =? k) (seq (a * m) m) = 1); [lia|].
  assert (Hc : forall len lo, lo + len <= m ->
    count (fun x => x mod m =? k) (seq (a * m + lo) len) = if (lo <=? k) && (k <? lo + len) then 1 else 0).
  { induction len as [|len IHl]; intros lo Hlo.
    - unfold count. cbn [seq filter length]. destruct (Nat.leb_spec lo k), (Nat.ltb_spec k (lo + 0)); cbn [andb]; lia.
    - cbn [seq]. change (count ?t (?x :: ?l)) with (length (if t x then x :: filter t l else filter t l)).
      specialize (IHl (S lo) ltac:(lia)). rewrite <- Nat.add_succ_r. unfold count in IHl.
      rewrite (Nat.add_comm (a * m) lo) at 1. rewrite Nat.mod_add, Nat.mod_small by lia.
      destruct (Nat.eqb_spec lo k) as [E|Hne]; cbn [length]; rewrite IHl;
        destruct (Nat.leb_spec (S lo) k), (Nat.leb_spec lo k), (Nat.ltb_spec k (lo + S len)), (Nat.ltb_spec k (S lo + len));
        cbn [andb]; lia. }
  specialize (Hc m 0 ltac:(lia)). rewrite Nat.add_0_r in Hc. rewrite Hc.
  destruct (Nat.leb_spec 0 k), (Nat.ltb_spec k (0 + m)); cbn [andb]; lia.
Qed.

Lemma count_flat k m ds K L :
  forall l, count (gives ((k, m) :: ds)) (flat_map (fun x => map (cons x) (scripts K L)) l) =
    count (fun x => Nat.eqb (x mod m) k) l * count (gives ds) (scripts K L).
Proof.
  induction l as [|x l IH]; [reflexivity|]. cbn [flat_map]. rewrite count_app, IH.
  assert (Hm : forall l', count (gives ((k, m) :: ds)) (map (cons x) l') = if Nat.eqb (x mod m) k then count (gives ds) l' else 0).
  { intro l'. unfold count. induction l' as [|s l' IHl]; cbn [map filter]; [destruct (Nat.eqb _ _); reflexivity|].
    change (gives ((k, m) :: ds) (x :: s)) with (Nat.eqb (x mod m) k && gives ds s).
    destruct (Nat.eqb (x mod m) k); cbn [andb]; [|exact IHl]. destruct (gives ds s); cbn [length]; rewrite IHl; reflexivity. }
  rewrite Hm. unfold count. cbn [filter]. destruct (Nat.eqb (x mod m) k); cbn [length]; lia.
Qed.

Lemma share ds K : 0 < K -> forall L, length ds <= L -> (forall k m, In (k, m) ds -> k < m /\ Nat.divide m K) ->
  count (gives ds) (scripts K L) * product (map snd ds) = K ^ L.
Proof.
  intro HK. induction ds as [|[k m] ds IH]; intros L Hl Hds.
  - cbn [map product fold_right]. unfold product. cbn. rewrite Nat.mul_1_r. rewrite <- scripts_length. unfold count. f_equal.
    induction (scripts K L) as [|s l IHl]; [reflexivity|]. cbn. f_equal. exact IHl.
  - destruct L as [|L]; [cbn in Hl; lia|]. cbn [scripts Nat.pow map snd]. rewrite count_flat.
    destruct (Hds k m (or_introl eq_refl)) as [Hk [q ->]].
    change (seq 0 (q * m)) with (seq (0 * m) (q * m)). rewrite count_residue by assumption.
    specialize (IH L ltac:(cbn in Hl; lia) (fun k m H => Hds k m (or_intror H))).
    rewrite <- IH. unfold product. cbn [fold_right map]. lia.
Qed.

(** The shares of draws that no list gives together add up. *)
Lemma shares_add (W : list (list draw)) (l : list (list nat)) : NoDup W ->
  (forall ds ds' s, In ds W -> In ds' W -> In s l -> gives ds s = true -> gives ds' s = true -> ds = ds') ->
  count (fun s => existsb (fun ds => gives ds s) W) l = list_sum (map (fun ds => count (gives ds) l) W).
Proof.
  intros Hd. induction Hd as [|ds W Hn Hd IH]; intro Hu.
  - clear Hu. unfold count. cbn. induction l; [reflexivity|assumption].
  - cbn [map list_sum fold_right]. unfold list_sum in *.
    rewrite <- IH by (intros a b s Ha Hb; apply Hu; right; assumption). clear IH.
    unfold count. cbn [existsb].
    assert (Hx : forall s, In s l -> gives ds s = true -> existsb (fun ds => gives ds s) W = false).
    { intros s Hs Hg. destruct (existsb (fun ds => gives ds s) W) eqn:E; [|reflexivity]. exfalso. apply existsb_exists in E.
      destruct E as (ds' & Hin & Hg'). apply Hn.
      rewrite (Hu ds ds' s); [assumption|left; reflexivity|right; assumption|assumption..]. }
    clear Hu Hn. induction l as [|s l IHl]; [reflexivity|]. cbn [filter].
    specialize (IHl (fun s Hs => Hx s (or_intror Hs))). specialize (Hx s (or_introl eq_refl)).
    destruct (gives ds s); cbn [orb length]; [rewrite Hx by reflexivity; lia|].
    destruct (existsb (fun ds => gives ds s) W); cbn [length]; lia.
Qed.

(** The draws of a walk. *)
Lemma walk_draws g ok alts bad (P : nat -> nat -> Prop) :
  (forall d p k e, In p g -> choosable p -> nth_error (alts d p) k = Some e -> P k (length (alts d p))) ->
  (forall d n ds r, walk g ok alts bad d n ds r -> forall k m, In (k, m) ds -> P k m) /\
  (forall d e ds r, walks g ok alts bad d e ds r -> forall k m, In (k, m) ds -> P k m).
Proof.
  intro H. apply walk_mutind; intros; try (match goal with H : In _ [] |- _ => destruct H end); eauto.
  all: repeat match goal with
       | H : In _ (_ ++ _) |- _ => apply in_app_or in H; destruct H
       | H : In _ (_ :: _) |- _ => destruct H as [H|H]; [injection H as <- <-|]
       | H : first_for _ _ _ |- _ => apply first_for_In in H; destruct H
       end; eauto.
Qed.

(** ** All walks of bounded length *)

Lemma collect_walks (P : list draw -> Prop) (l : list (list nat)) :
  (forall s, In s l -> (exists ds, P ds /\ gives ds s = true) \/ ~ (exists ds, P ds /\ gives ds s = true)) ->
  (forall s ds ds', In s l -> P ds -> P ds' -> gives ds s = true -> gives ds' s = true -> ds = ds') ->
  exists W, NoDup W /\ forall ds, In ds W <-> P ds /\ exists s, In s l /\ gives ds s = true.
Proof.
  induction l as [|s l IH]; intros Hd Hu.
  - exists []. split; [constructor|]. intro ds. split; [intros []|]. intros (_ & s & [] & _).
  - destruct IH as (W & HN & HW). { intros; apply Hd; right; assumption. } { intros ? ? ? ?. apply Hu. right; assumption. }
    destruct (Hd s (or_introl eq_refl)) as [(ds & HP & Hg)|Hno].
    + assert (Hdec : {In ds W} + {~ In ds W}).
      { apply in_dec. apply list_eq_dec. decide equality; apply Nat.eq_dec. }
      destruct Hdec as [Hin|Hin].
      * exists W. split; [assumption|]. intro ds'. rewrite HW. split.
        -- intros (H & s' & Hs' & Hg'). split; [assumption|]. exists s'. split; [right|]; assumption.
        -- intros (H & s' & [<-|Hs'] & Hg'); [|eauto]. rewrite <- (Hu s ds ds' (or_introl eq_refl) HP H Hg Hg'). apply HW. assumption.
      * exists (ds :: W). split; [constructor; assumption|]. intro ds'. split.
        -- intros [<-|H]; [split; [assumption|]; exists s; split; [left; reflexivity|assumption]|]. apply HW in H.
           destruct H as (H & s' & Hs' & Hg'). split; [assumption|]. exists s'. split; [right|]; assumption.
        -- intros (H & s' & [<-|Hs'] & Hg').
           ++ left. exact (Hu s ds ds' (or_introl eq_refl) HP H Hg Hg').
           ++ right. apply HW. eauto.
    + exists W. split; [assumption|]. intro ds'. rewrite HW. split.
      * intros (H & s' & Hs' & Hg'). split; [assumption|]. exists s'. split; [right|]; assumption.
      * intros (H & s' & [<-|Hs'] & Hg'); [|eauto]. exfalso. apply Hno. eauto.
Qed.

Section Probability.
  Variable g : grammar.
  Variable ok : str -> str -> bool.
  Variable alts : nat -> production -> list expression.
  Variable choose : (nat -> nat) -> nat -> nat -> production -> nat -> res (option expression * nat).
  Hypothesis Hone : forall f i addr p d, In p g -> p_rhs p <> [] ->
    exists e, nth_error (alts d p) (f i mod length (alts d p)) = Some e /\ choose f i addr p d = Ok (Some e, S i).
  Variables (base len : nat).
  Hypothesis Hbase : 0 < base.
  Hypothesis Hdiv : forall d p, In p g -> choosable p -> Nat.divide (length (alts d p)) base.

  Notation wk := (walk g ok alts bad_error).

  Lemma walk_share d n ds r : wk d n ds r -> length ds <= len ->
    count (gives ds) (scripts base len) * product (map snd ds) = base ^ len.
  Proof.
    intros Hw Hl. apply share; [assumption..|].
    assert (Hk : forall d p k e, In p g -> choosable p -> nth_error (alts d p) k = Some e ->
      k < length (alts d p) /\ Nat.divide (length (alts d p)) base).
    { intros d0 p k e Hp Hc Hk. split; [apply nth_error_Some; congruence|auto]. }
    exact (proj1 (walk_draws g ok alts bad_error (fun k m => k < m /\ Nat.divide m base) Hk) _ _ _ _ Hw).
  Qed.

  (** The number of lists that make the generator return [r], from the walks to [r]. *)
  Lemma probability p rest n r fuel0 : g = p :: rest -> p_lhs p = Nonterminal n -> terminates fuel0 g = Ok true ->
    exists W, NoDup W /\ (forall ds, In ds W <-> wk 0 n ds r /\ length ds <= len) /\
    forall S, NoDup S ->
      (forall s, In s S <-> In s (scripts base len) /\
         exists fuel l, l <= len /\ generate (choose (source s)) (pure_callback ok) g fuel 0 = Ok (r, l)) ->
      length S = list_sum (map (fun ds => base ^ len / product (map snd ds)) W).
  Proof.
    intros Eg Hl Ht.
    assert (Hgf : forall s ds, In s (scripts base len) -> length ds <= len -> gives ds s = true <-> follows (source s) 0 ds).
    { intros s ds Hs Hd. apply scripts_spec in Hs. apply gives_follows; [lia|reflexivity]. }
    assert (Hun : forall s ds ds' r', In s (scripts base len) -> wk 0 n ds r' -> length ds <= len -> wk 0 n ds' r' -> length ds' <= len ->
      gives ds s = true -> gives ds' s = true -> ds = ds').
    { intros s ds ds' r' Hs Hw Hd Hw' Hd' Hg Hg'. rewrite Hgf in Hg, Hg' by assumption.
      exact (proj1 (proj1 (walk_unique g ok alts bad_error (source s)) _ _ _ _ Hw 0 _ _ Hw' Hg Hg')). }
    destruct (collect_walks (fun ds => wk 0 n ds r /\ length ds <= len) (scripts base len)) as (W & HN & HW).
    { intros s Hs. destruct (walk_decidable g ok alts (source s) (choose (source s)) (Hone (source s)) n r len) as [(ds & Hw & Hd & Hf)|Hno].
      - left. exists ds. split; [auto|]. apply Hgf; assumption.
      - right. intros (ds & [Hw Hd] & Hg). apply Hno. exists ds. rewrite <- Hgf by assumption. auto. }
    { intros s ds ds' Hs [Hw Hd] [Hw' Hd'] Hg Hg'. exact (Hun s ds ds' r Hs Hw Hd Hw' Hd' Hg Hg'). }
    assert (HW' : forall ds, In ds W <-> wk 0 n ds r /\ length ds <= len).
    { intro ds. rewrite HW. split; [tauto|]. intros [Hw Hd]. split; [auto|].
      pose proof (walk_share _ _ _ _ Hw Hd) as Hs. unfold count in Hs.
      destruct (filter (gives ds) (scripts base len)) as [|s l] eqn:E.
      - cbn in Hs. pose proof (Nat.pow_nonzero base len). lia.
      - assert (Hin : In s (filter (gives ds) (scripts base len))) by (rewrite E; left; reflexivity).
        apply filter_In in Hin. eauto. }
    exists W. split; [assumption|]. split; [assumption|]. intros S HS HSs.
    assert (E : map (fun ds => base ^ len / product (map snd ds)) W = map (fun ds => count (gives ds) (scripts base len)) W).
    { apply map_ext_in. intros ds Hds. apply HW' in Hds. destruct Hds as [Hw Hd]. pose proof (walk_share _ _ _ _ Hw Hd) as Hs.
      rewrite <- Hs. apply Nat.div_mul. intro E0. rewrite E0, Nat.mul_0_r in Hs. pose proof (Nat.pow_nonzero base len). lia. }
    rewrite E, <- shares_add; [|assumption|].
    2:{ intros ds ds' s Hds Hds' Hs. apply HW' in Hds, Hds'. destruct Hds, Hds'. eapply Hun; eassumption. }
    unfold count. apply Permutation_length. apply NoDup_Permutation; [assumption|apply NoDup_filter, scripts_NoDup|].
    intro s. rewrite HSs, filter_In, existsb_exists. split.
    - intros (Hs & fuel & l & Hle & Hg). split; [assumption|].
      destruct (proj1 (generate_walk g ok alts (source s) (choose (source s)) (Hone (source s)) p rest n r l fuel0 Eg Hl Ht)
        (ex_intro _ fuel Hg)) as (ds & Hw & <- & Hf). exists ds. split; [apply HW'; auto|]. apply Hgf; assumption.
    - intros (Hs & ds & Hds & Hg). apply HW' in Hds. destruct Hds as [Hw Hd]. split; [assumption|].
      destruct (proj2 (generate_walk g ok alts (source s) (choose (source s)) (Hone (source s)) p rest n r (length ds) fuel0 Eg Hl Ht)) as [fuel Hf].
      { exists ds. rewrite Hgf in Hg by assumption. auto. }
      exists fuel, (length ds). auto.
  Qed.
End Probability.
