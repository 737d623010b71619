(** The random walk on the Polish calculator of the benchmarks. *)
From Verif Require Export ExpectProofs.
From Verif Require Import Facts_Linear ParseExamples Facts_Expect StrategyProofs Facts_Strategies.
From Coq Require Import Lia.
From Coq Require String.
Import String.StringSyntax.

(** ** One draw at a time *)
Section Steps.
  Variable g : grammar.
  Variable alts : nat -> production -> list expression.
  Variable bad : error.
  Hypothesis Hne : forall d p, In p g -> choosable p -> alts d p <> [].
  Notation yes := (fun _ _ : str => true).
  Notation use := (used g alts).

  Definition all_draws (base len : nat) (st : list (nat * str)) : nat := list_sum (map (fun s => fst (use st s)) (scripts base len)).
  Definition all_late (base len : nat) (st : list (nat * str)) : nat := list_sum (map (fun s => if snd (use st s) then 0 else 1) (scripts base len)).

  Lemma all_late_le base len st : all_late base len st <= base ^ len.
  Proof.
    unfold all_late. rewrite <- scripts_length, <- (Nat.mul_1_l (length (scripts base len))), <- (sum_const (scripts base len) 1).
    apply sum_le. intros s _. destruct (snd (use st s)); lia.
  Qed.

  Lemma draws_step base len d n st p : rule_of g n = Some p -> choosable p ->
    all_draws base (S len) ((d, n) :: st) = base ^ S len +
      list_sum (map (fun x => all_draws base len (push g (d + 1) (nth (x mod length (alts d p)) (alts d p) []) st)) (seq 0 base)).
  Proof.
    intros Er Ec. unfold all_draws at 1. cbn [scripts]. rewrite sum_flat.
    rewrite (map_ext _ (fun x => base ^ len + all_draws base len (push g (d + 1) (nth (x mod length (alts d p)) (alts d p) []) st))).
    - rewrite sum_add, sum_const, seq_length. cbn [Nat.pow]. lia.
    - intro x. rewrite map_map. assert (HB : base ^ len = list_sum (map (fun _ => 1) (scripts base len))) by (rewrite sum_const, scripts_length; lia).
      rewrite HB. unfold all_draws. rewrite <- sum_add. f_equal. apply map_ext. intro s. rewrite used_cons, Er, (proj2 (choosableb_spec p) Ec).
      destruct (use (push g (d + 1) (nth (x mod length (alts d p)) (alts d p) []) st) s). reflexivity.
  Qed.

  Lemma late_step base len d n st p : rule_of g n = Some p -> choosable p ->
    all_late base (S len) ((d, n) :: st) =
      list_sum (map (fun x => all_late base len (push g (d + 1) (nth (x mod length (alts d p)) (alts d p) []) st)) (seq 0 base)).
  Proof.
    intros Er Ec. unfold all_late at 1. cbn [scripts]. rewrite sum_flat. f_equal. apply map_ext. intro x. rewrite map_map.
    unfold all_late. f_equal. apply map_ext. intro s. rewrite used_cons, Er, (proj2 (choosableb_spec p) Ec).
    destruct (use (push g (d + 1) (nth (x mod length (alts d p)) (alts d p) []) st) s). reflexivity.
  Qed.

  (** A walk is what the machine does. *)
  Lemma skipn_app_gives ds ds' : forall s, gives (ds ++ ds') s = true -> gives ds s = true /\ gives ds' (skipn (length ds) s) = true.
  Proof.
    induction ds as [|[k m] ds IH]; intros s H; [split; [reflexivity|exact H]|]. destruct s as [|x s]; [discriminate|].
    cbn in *. apply andb_true_iff in H. destruct H as [H1 H2]. destruct (IH s H2) as [H3 H4]. rewrite H1, H3. auto.
  Qed.

  Definition then_use (r : result str) (k : nat) (st : list (nat * str)) (s : list nat) : nat * bool :=
    match r with RErr _ => (k, true) | ROk _ => let (k', b) := use st (skipn k s) in (k + k', b) end.

  Lemma then_use_add r a b st s : then_use r (a + b) st s = let (k, c) := then_use r b st (skipn a s) in (a + k, c).
  Proof.
    destruct r as [w|x]; cbn [then_use]; [|reflexivity]. rewrite skipn_twice. destruct (use st (skipn (a + b) s)). rewrite Nat.add_assoc. reflexivity.
  Qed.

  Lemma walk_used :
    (forall d n ds r, walk g yes alts bad d n ds r -> forall st s, rule_of g n <> None -> gives ds s = true ->
       use ((d, n) :: st) s = then_use r (length ds) st s) /\
    (forall d e ds r, walks g yes alts bad d e ds r -> forall st s, gives ds s = true ->
       use (push g d e st) s = then_use r (length ds) st s).
  Proof.
    assert (Hrule : forall n p, first_for g n p -> rule_of g n = Some p) by (intros n p H; apply rule_some, H).
    assert (Hstep : forall d n p k e ds r st s, first_for g n p -> choosable p -> nth_error (alts d p) k = Some e ->
      (forall st s, gives ds s = true -> use (push g (d + 1) e st) s = then_use r (length ds) st s) ->
      gives ((k, length (alts d p)) :: ds) s = true -> use ((d, n) :: st) s = then_use r (length ((k, length (alts d p)) :: ds)) st s).
    { intros d n p k e ds r st s Hf Hc He IH Hg. destruct s as [|x s]; [discriminate|]. cbn [gives] in Hg. apply andb_true_iff in Hg. destruct Hg as [Hx Hg].
      apply Nat.eqb_eq in Hx. rewrite used_cons, (Hrule n p Hf), (proj2 (choosableb_spec p) Hc), Hx.
      rewrite (nth_error_nth (alts d p) k [] He), (IH st s Hg). change (length ((k, length (alts d p)) :: ds)) with (1 + length ds).
      rewrite then_use_add. cbn [skipn]. destruct (then_use r (length ds) st s). reflexivity. }
    apply walk_mutind.
    - intros d n Hn st s Hr _. exfalso. destruct (rule_of g n) as [p|] eqn:E; [|congruence]. apply rule_some in E. apply Hn. eapply first_for_has_lhs; exact E.
    - intros d n p Hf Hc st s _ _. rewrite used_cons, (Hrule n p Hf). destruct (choosableb p) eqn:E; [|reflexivity]. apply choosableb_spec in E. contradiction.
    - intros d n p k e ds x Hf Hc He _ IH st s _ Hg. eapply Hstep; eassumption.
    - intros d n p k e ds w Hf Hc He _ IH _ st s _ Hg. eapply Hstep; eassumption.
    - intros d n p k e ds w ds' r Hf Hc He _ IH Hok _ _. discriminate.
    - intros d st s _. change (use st s = let (k', b) := use st s in (0 + k', b)). destruct (use st s). reflexivity.
    - intros d t e ds w _ IH st s Hg. exact (IH st s Hg).
    - intros d t e ds x _ IH st s Hg. exact (IH st s Hg).
    - intros d n e ds ds' v w Hw IHw _ IHs st s Hg. apply skipn_app_gives in Hg. destruct Hg as [H1 H2].
      rewrite app_length, then_use_add. change (then_use (ROk (v ++ w))) with (then_use (ROk w)). rewrite <- (IHs st _ H2). unfold push. cbn [names flat_map]. fold (names g e). destruct (rule_of g n) as [p|] eqn:E.
      + cbn [app map]. change (map (pair d) (names g e) ++ st) with (push g d e st). rewrite (IHw (push g d e st) s ltac:(discriminate) H1). reflexivity.
      + cbn [app]. fold (push g d e st). apply rule_none in E. inversion Hw as [|? ? p Hf| |? ? p k0 e0 ds0 w0 Hf|]; subst; try discriminate.
        * cbn [length skipn]. destruct (use (push g d e st) s). reflexivity.
        * exfalso. apply E. eapply first_for_has_lhs; exact Hf.
    - intros d n e ds ds' v x Hw IHw _ IHs st s Hg. apply skipn_app_gives in Hg. destruct Hg as [H1 H2].
      rewrite app_length, then_use_add. rewrite <- (IHs st _ H2). unfold push. cbn [names flat_map]. fold (names g e). destruct (rule_of g n) as [p|] eqn:E.
      + cbn [app map]. change (map (pair d) (names g e) ++ st) with (push g d e st). rewrite (IHw (push g d e st) s ltac:(discriminate) H1). reflexivity.
      + cbn [app]. fold (push g d e st). apply rule_none in E. inversion Hw as [|? ? p Hf| |? ? p k0 e0 ds0 w0 Hf|]; subst; try discriminate.
        * cbn [length skipn]. destruct (use (push g d e st) s). reflexivity.
        * exfalso. apply E. eapply first_for_has_lhs; exact Hf.
    - intros d n e ds x Hw IHw st s Hg. unfold push. cbn [names flat_map]. fold (names g e). destruct (rule_of g n) as [p|] eqn:E.
      + cbn [app map]. change (map (pair d) (names g e) ++ st) with (push g d e st). rewrite (IHw (push g d e st) s ltac:(discriminate) Hg). reflexivity.
      + exfalso. apply rule_none in E. inversion Hw as [|? ? p Hf|? ? p k0 e0 ds0 x0 Hf| |]; subst; [| |discriminate]; apply E; eapply first_for_has_lhs; exact Hf.
  Qed.

  (** The generator in terms of the machine. *)
  Variable run : (nat -> nat) -> nat -> res (result str * nat).
  Variable n : str.
  Hypothesis Hn : rule_of g n <> None.
  Hypothesis Hrun : forall f r l, (exists fuel, run f fuel = Ok (r, l)) <->
    (exists ds, walk g yes alts bad 0 n ds r /\ length ds = l /\ follows f 0 ds).

  Lemma run_used base len s l : In s (scripts base len) -> l <= len ->
    (exists fuel r, run (source s) fuel = Ok (r, l)) <-> use [(0, n)] s = (l, true).
  Proof.
    intros Hs Hl. apply scripts_spec in Hs. destruct Hs as [Hlen _].
    assert (Hsrc : forall ds, length ds <= length s -> gives ds s = true <-> follows (source s) 0 ds).
    { intros ds H. apply gives_follows; [exact H|reflexivity]. }
    split.
    - intros (fuel & r & E). destruct (proj1 (Hrun (source s) r l) (ex_intro _ fuel E)) as (ds & Hw & Hd & Hf).
      apply Hsrc in Hf; [|unfold draw in *; lia]. rewrite (proj1 walk_used 0 n ds r Hw [] s Hn Hf), Hd.
      destruct r; cbn [then_use]; [|reflexivity]. destruct (skipn l s); cbn [used]; rewrite Nat.add_0_r; reflexivity.
    - intro E. destruct (used_walk g alts bad Hne 0 n s l E Hn) as (ds & r & Hw & Hg & Hk & Hks). apply Hsrc in Hg; [|unfold draw in *; lia].
      destruct (proj2 (Hrun (source s) r l) (ex_intro _ ds (conj Hw (conj Hk Hg)))) as [fuel H]. eauto.
  Qed.

  Lemma used_cut s : fst (use [(0, n)] s) <= length s.
  Proof.
    destruct (use [(0, n)] s) as [k b] eqn:E. cbn [fst]. destruct b.
    - destruct (used_walk g alts bad Hne 0 n s k E Hn) as (_ & _ & _ & _ & _ & H). exact H.
    - pose proof (used_late g alts s [(0, n)]) as H. rewrite E in H. cbn [fst snd] in H. rewrite (H eq_refl). lia.
  Qed.

  Lemma late_used base len s : In s (scripts base len) ->
    (~ exists fuel r l, l <= len /\ run (source s) fuel = Ok (r, l)) <-> snd (use [(0, n)] s) = false.
  Proof.
    intro Hs. assert (Hlen : length s = len) by (apply scripts_spec in Hs; apply Hs).
    pose proof (used_cut s) as Hc. destruct (use [(0, n)] s) as [k b] eqn:E. cbn [snd fst] in *. split.
    - intro H. destruct b; [|reflexivity]. exfalso. apply H. destruct (proj2 (run_used base len s k Hs ltac:(lia)) E) as (fuel & r & Er). exists fuel, r, k.
      split; [lia|exact Er].
    - intros -> (fuel & r & l & Hl & Er). assert (H : exists fuel r, run (source s) fuel = Ok (r, l)) by eauto.
      apply (run_used base len s l Hs Hl) in H. rewrite E in H. discriminate.
  Qed.

  Lemma all_draws_le base len (R : list (list nat * nat)) late :
    (forall s, In s (scripts base len) -> In s (map fst R) \/ In s late) ->
    (forall s l, In (s, l) R -> In s (scripts base len) /\ l <= len /\ exists fuel r, run (source s) fuel = Ok (r, l)) ->
    all_draws base len [(0, n)] <= list_sum (map snd R) + len * length late.
  Proof.
    intros Hall HR. set (F := fun s => fst (use [(0, n)] s)).
    assert (H : all_draws base len [(0, n)] <= list_sum (map F (map fst R ++ filter (fun s => length s =? len) late))).
    { unfold all_draws. fold F. apply sum_incl; [apply scripts_NoDup|]. intros s Hs. apply in_app_iff. destruct (Hall s Hs) as [H|H]; [left; exact H|right].
      apply filter_In. split; [exact H|]. apply Nat.eqb_eq. apply scripts_spec in Hs. apply Hs. }
    eapply Nat.le_trans; [exact H|]. rewrite map_app, list_sum_app, map_map. apply Nat.add_le_mono.
    - apply sum_le. intros [s l] Hs. destruct (HR s l Hs) as (Hsc & Hl & He). apply (run_used base len s l Hsc Hl) in He. unfold F. cbn [fst snd]. rewrite He. reflexivity.
    - apply Nat.le_trans with (list_sum (map (fun _ => len) (filter (fun s => length s =? len) late))).
      + apply sum_le. intros s Hs. apply filter_In in Hs. destruct Hs as [_ Hs]. apply Nat.eqb_eq in Hs. pose proof (used_cut s). unfold F. lia.
      + rewrite sum_const. apply Nat.mul_le_mono_l. clear. induction late as [|s late IH]; [cbn; lia|]. cbn [filter]. destruct (length s =? len); cbn; lia.
  Qed.

  Lemma late_le base len late : NoDup late ->
    (forall s, In s late -> In s (scripts base len) /\ ~ exists fuel r l, l <= len /\ run (source s) fuel = Ok (r, l)) ->
    length late <= all_late base len [(0, n)].
  Proof.
    intros Hnd H. rewrite <- (Nat.mul_1_l (length late)), <- (sum_const late 1).
    apply Nat.le_trans with (list_sum (map (fun s => if snd (use [(0, n)] s) then 0 else 1) late)).
    - apply sum_le. intros s Hs. destruct (H s Hs) as [Hsc Hno]. apply (late_used base len s Hsc) in Hno. rewrite Hno. lia.
    - apply sum_incl; [exact Hnd|]. intros s Hs. apply (H s Hs).
  Qed.
End Steps.

(** ** The calculator *)
Section Polish.
  Notation g := polish_grammar.
  Notation alts := random_alternatives.
  Notation product := (lit "product").
  Variable q : nat.
  Notation base := (q * 20).
  Notation Dr := (all_draws g alts base).
  Notation La := (all_late g alts base).

  Lemma polish_rule_product : rule_of g product = Some (mkProd (N_ "product") [[N_ "number"]; [N_ "op"; N_ "product"; N_ "product"]]).
  Proof. reflexivity. Qed.

  (** After an operator or a number the rest is expanded. *)
  Lemma sum_base (F : nat -> nat) m k : 0 < m -> m * k = 20 -> list_sum (map (fun x => F (x mod m)) (seq 0 base)) = q * k * list_sum (map F (seq 0 m)).
  Proof. intros Hm H. replace base with (q * k * m) by (rewrite <- H; ring). apply sum_mod, Hm. Qed.

  Lemma draws_other len d n st : n = lit "op" \/ n = lit "number" -> Dr (S len) ((d, n) :: st) = base ^ S len + base * Dr len st.
  Proof.
    intros [->| ->].
    - rewrite (draws_step g alts base len d (lit "op") st (mkProd (N_ "op") [[T_ "+"]; [T_ "-"]; [T_ "*"]; [T_ "/"]]) eq_refl); [|split; discriminate].
      f_equal. match goal with |- context [alts d ?p] => change (length (alts d p)) with 4; rewrite (sum_base (fun k => Dr len (push g (d + 1) (nth k (alts d p) []) st)) 4 5) by reflexivity || lia end.
      transitivity (q * 5 * list_sum (map (fun _ => Dr len st) (seq 0 4))); [reflexivity|rewrite sum_const, seq_length; ring].
    - rewrite (draws_step g alts base len d (lit "number") st (mkProd (N_ "number") [[T_ "0"]; [T_ "1"]; [T_ "2"]; [T_ "3"]; [T_ "4"]; [T_ "5"]; [T_ "6"]; [T_ "7"]; [T_ "8"]; [T_ "9"]]) eq_refl); [|split; discriminate].
      f_equal. match goal with |- context [alts d ?p] => change (length (alts d p)) with 10; rewrite (sum_base (fun k => Dr len (push g (d + 1) (nth k (alts d p) []) st)) 10 2) by reflexivity || lia end.
      transitivity (q * 2 * list_sum (map (fun _ => Dr len st) (seq 0 10))); [reflexivity|rewrite sum_const, seq_length; ring].
  Qed.

  Lemma late_other len d n st : n = lit "op" \/ n = lit "number" -> La (S len) ((d, n) :: st) = base * La len st.
  Proof.
    intros [->| ->].
    - rewrite (late_step g alts base len d (lit "op") st (mkProd (N_ "op") [[T_ "+"]; [T_ "-"]; [T_ "*"]; [T_ "/"]]) eq_refl); [|split; discriminate].
      match goal with |- context [alts d ?p] => change (length (alts d p)) with 4; rewrite (sum_base (fun k => La len (push g (d + 1) (nth k (alts d p) []) st)) 4 5) by reflexivity || lia end.
      transitivity (q * 5 * list_sum (map (fun _ => La len st) (seq 0 4))); [reflexivity|rewrite sum_const, seq_length; ring].
    - rewrite (late_step g alts base len d (lit "number") st (mkProd (N_ "number") [[T_ "0"]; [T_ "1"]; [T_ "2"]; [T_ "3"]; [T_ "4"]; [T_ "5"]; [T_ "6"]; [T_ "7"]; [T_ "8"]; [T_ "9"]]) eq_refl); [|split; discriminate].
      match goal with |- context [alts d ?p] => change (length (alts d p)) with 10; rewrite (sum_base (fun k => La len (push g (d + 1) (nth k (alts d p) []) st)) 10 2) by reflexivity || lia end.
      transitivity (q * 2 * list_sum (map (fun _ => La len st) (seq 0 10))); [reflexivity|rewrite sum_const, seq_length; ring].
  Qed.

  (** Two draws: a pending product is replaced by none or by two. *)
  Lemma draws_product len d st : Dr (S (S len)) ((d, product) :: st) =
    2 * base ^ S (S len) + q * 10 * base * (Dr len st + Dr len ((d + 1, product) :: (d + 1, product) :: st)).
  Proof.
    rewrite (draws_step g alts base (S len) d _ st _ polish_rule_product); [|split; discriminate].
    match goal with |- context [alts d ?p] => change (length (alts d p)) with 2; rewrite (sum_base (fun k => Dr (S len) (push g (d + 1) (nth k (alts d p) []) st)) 2 10) by reflexivity || lia end.
    change (list_sum _) with (Dr (S len) ((d + 1, lit "number") :: st) + (Dr (S len) ((d + 1, lit "op") :: (d + 1, product) :: (d + 1, product) :: st) + 0)).
    rewrite !draws_other by auto. generalize (Dr len st), (Dr len ((d + 1, product) :: (d + 1, product) :: st)). intros x y.
    cbn [Nat.pow]. generalize (base ^ len). intro z. ring.
  Qed.

  Lemma late_product len d st : La (S (S len)) ((d, product) :: st) =
    q * 10 * base * (La len st + La len ((d + 1, product) :: (d + 1, product) :: st)).
  Proof.
    rewrite (late_step g alts base (S len) d _ st _ polish_rule_product); [|split; discriminate].
    match goal with |- context [alts d ?p] => change (length (alts d p)) with 2; rewrite (sum_base (fun k => La (S len) (push g (d + 1) (nth k (alts d p) []) st)) 2 10) by reflexivity || lia end.
    change (list_sum _) with (La (S len) ((d + 1, lit "number") :: st) + (La (S len) ((d + 1, lit "op") :: (d + 1, product) :: (d + 1, product) :: st) + 0)).
    rewrite !late_other by auto. ring.
  Qed.

  (** The products that are pending make a fair walk; it takes [x * (C - x)] steps on average until it
      reaches 0 or [C]. *)
  Definition gap (C x : nat) : nat := x * (C - x).

  Lemma gap_mid C x : S x < C -> gap C x + gap C (S (S x)) + 2 = 2 * gap C (S x).
  Proof. unfold gap. intro H. destruct C as [|[|C]]; [lia|lia|]. replace (S (S C) - S (S x)) with (C - x) by lia. replace (S (S C) - S x) with (C - x + 1) by lia.
    replace (S (S C) - x) with (C - x + 2) by lia. generalize (C - x). intro y. ring. Qed.

  Lemma gap_bound C x : gap C x <= C * C.
  Proof. unfold gap. destruct (le_lt_dec C x) as [H|H]; [replace (C - x) with 0 by lia; lia|]. apply Nat.mul_le_mono; lia. Qed.

  Definition products (st : list (nat * str)) : Prop := Forall (fun dn => snd dn = product) st.

  Lemma draws_ge C M : forall N st, M <= N -> products st ->
    2 * gap C (length st) * M * base ^ (2 * M) <= (N + C * C) * Dr (2 * M) st.
  Proof.
    induction M as [|M IH]; intros N st HM Hst; [lia|].
    destruct Hst as [|[d n] st Hn Hst]; [cbn [length]; unfold gap; lia|]. cbn [snd] in Hn. subst n. cbn [length].
    destruct (le_lt_dec C (S (length st))) as [H|H].
    { unfold gap. replace (C - S (length st)) with 0 by lia. lia. }
    replace (2 * S M) with (S (S (2 * M))) by lia. rewrite draws_product.
    pose proof (IH N st ltac:(lia) Hst) as H1.
    pose proof (IH N ((d + 1, product) :: (d + 1, product) :: st) ltac:(lia) ltac:(repeat apply Forall_cons; auto)) as H2.
    cbn [length] in H2. pose proof (gap_mid C (length st) H) as Hg. pose proof (gap_bound C (S (length st))) as Hb.
    cbn [Nat.pow]. set (Bx := base ^ (2 * M)) in *. set (D1 := Dr (2 * M) st) in *. set (D2 := Dr (2 * M) ((d + 1, product) :: (d + 1, product) :: st)) in *.
    set (y0 := gap C (length st)) in *. set (y1 := gap C (S (length st))) in *. set (y2 := gap C (S (S (length st)))) in *.
    clearbody Bx D1 D2 y0 y1 y2. set (Dn := N + C * C) in *. assert (HD : M + y1 <= Dn) by (unfold Dn; lia). clearbody Dn.
    assert (H3 : 2 * (y0 + y2) * M * Bx <= Dn * (D1 + D2)) by nia.
    assert (H4 : 2 * y1 * S M <= 2 * Dn + (y0 + y2) * M) by nia.
    apply Nat.le_trans with ((2 * Dn + (y0 + y2) * M) * (base * (base * Bx))).
    - apply Nat.mul_le_mono_r, H4.
    - assert (H5 : q * 10 * base * (2 * (y0 + y2) * M * Bx) <= q * 10 * base * (Dn * (D1 + D2))) by (apply Nat.mul_le_mono_l, H3). nia.
  Qed.

  Lemma late_bound C M : forall N st, M <= N -> products st -> length st <= C ->
    C * (N + 1 + C * C) * La (2 * M) st <=
      base ^ (2 * M) * (length st * (N + 1 + C * C) + C * (1 + gap C (length st)) * (N + 1 + C * C - M)).
  Proof.
    induction M as [|M IH]; intros N st HM Hst HC.
    - destruct Hst as [|[d n] st Hn Hst]; [unfold all_late; cbn; lia|]. pose proof (all_late_le g alts base 0 ((d, n) :: st)) as H. change (2 * 0) with 0.
      rewrite Nat.pow_0_r in *. cbn [length] in *. rewrite Nat.sub_0_r, Nat.mul_1_l. set (Dn := N + 1 + C * C) in *. clearbody Dn.
      set (L := La 0 ((d, n) :: st)) in *. clearbody L. set (y := gap C (S (length st))). clearbody y. nia.
    - destruct (Nat.eq_dec (length st) C) as [H|H].
      { rewrite H. pose proof (all_late_le g alts base (2 * S M) st) as Hl. set (L := La (2 * S M) st) in *. clearbody L. set (Bx := base ^ (2 * S M)) in *. clearbody Bx.
        eapply Nat.le_trans; [apply Nat.mul_le_mono_l, Hl|]. rewrite (Nat.mul_comm _ Bx). apply Nat.mul_le_mono_l, Nat.le_add_r. }
      destruct Hst as [|[d n] st Hn Hst].
      { assert (Hz : La (2 * S M) [] = 0); [|rewrite Hz; lia]. unfold all_late. rewrite (map_ext _ (fun _ => 0)); [rewrite sum_const; reflexivity|]. intros [|x s]; reflexivity. }
      cbn [snd] in Hn. subst n. cbn [length] in *.
      replace (2 * S M) with (S (S (2 * M))) by lia. rewrite late_product.
      pose proof (IH N st ltac:(lia) Hst ltac:(lia)) as H1.
      pose proof (IH N ((d + 1, product) :: (d + 1, product) :: st) ltac:(lia) ltac:(repeat apply Forall_cons; auto) ltac:(cbn [length]; lia)) as H2.
      cbn [length] in H2. pose proof (gap_mid C (length st) ltac:(lia)) as Hg. pose proof (gap_bound C (S (length st))) as Hb.
      cbn [Nat.pow]. set (Bx := base ^ (2 * M)) in *. set (L1 := La (2 * M) st) in *. set (L2 := La (2 * M) ((d + 1, product) :: (d + 1, product) :: st)) in *.
      set (y0 := gap C (length st)) in *. set (y1 := gap C (S (length st))) in *. set (y2 := gap C (S (S (length st)))) in *.
      clearbody Bx L1 L2 y0 y1 y2. set (x := length st) in *. clearbody x.
      assert (HD : exists r, N + 1 + C * C - M = S r /\ N + 1 + C * C - S M = r /\ y1 <= r) by (exists (N + 1 + C * C - S M); lia).
      destruct HD as (r & E1 & E2 & Hr). rewrite E2. rewrite E1 in H1, H2. set (Dn := N + 1 + C * C) in *. clearbody Dn.
      assert (H3 : C * Dn * (L1 + L2) <= Bx * (2 * S x * Dn + C * (2 * y1) * S r)).
      { replace (2 * y1) with (y0 + y2 + 2) by lia. rewrite Nat.mul_add_distr_l. eapply Nat.le_trans; [apply Nat.add_le_mono; eassumption|].
        apply Nat.eq_le_incl. ring. }
      assert (H4 : y1 * S r <= (1 + y1) * r) by nia.
      apply Nat.le_trans with (q * 10 * base * (Bx * (2 * S x * Dn + C * (2 * y1) * S r))).
      + replace (C * Dn * (q * 10 * base * (L1 + L2))) with (q * 10 * base * (C * Dn * (L1 + L2))) by ring. apply Nat.mul_le_mono_l, H3.
      + replace (q * 10 * base * (Bx * (2 * S x * Dn + C * (2 * y1) * S r))) with (base * (base * Bx) * (S x * Dn + C * (y1 * S r))) by ring.
        apply Nat.mul_le_mono_l. rewrite <- Nat.mul_assoc. apply Nat.add_le_mono_l. apply Nat.mul_le_mono_l, H4.
  Qed.
End Polish.

(** ** The last steps to C86 *)
Section Facts.
  Notation yes := (fun _ _ : str => true).
  Notation run := (fun f fuel => generate_random (stream_rng f) yes polish_grammar fuel 0).
  Variable base : nat.
  Hypothesis Hbase : Nat.divide 20 base.

  Lemma polish_run f r l : (exists fuel, run f fuel = Ok (r, l)) <->
    (exists ds, walk polish_grammar yes random_alternatives no_alternative 0 (lit "product") ds r /\ length ds = l /\ follows f 0 ds).
  Proof. exact (C70_random_walk_proof polish_grammar _ _ (lit "product") 9 eq_refl eq_refl ltac:(vm_compute; reflexivity) yes f r l). Qed.

  Lemma polish_alts d p : In p polish_grammar -> choosable p -> random_alternatives d p <> [].
  Proof. intros _ [H _]. exact H. Qed.

  Lemma C86_infinite_average_proof B : average_at_least run base (2 * (S B * S B)) B.
  Proof.
    intros R late Hall HR.
    pose proof (all_draws_le polish_grammar random_alternatives no_alternative polish_alts run (lit "product") ltac:(vm_compute; discriminate) polish_run base (2 * (S B * S B)) R late Hall HR) as H.
    eapply Nat.le_trans; [|exact H]. destruct Hbase as [q ->].
    pose proof (draws_ge q (S B) (S B * S B) (S B * S B) [(0, lit "product")] ltac:(lia) ltac:(repeat constructor)) as HB.
    unfold gap in HB. cbn [length] in HB. rewrite Nat.mul_1_l in HB. replace (S B - 1) with B in HB by lia.
    set (D := all_draws _ _ _ _ _) in *. set (P := (q * 20) ^ (2 * (S B * S B))) in *. clearbody D P. nia.
  Qed.

  Lemma C86_probability_one_proof k : exists len, forall late, NoDup late ->
    (forall s, In s late -> In s (scripts base len) /\ ~ exists fuel r l, l <= len /\ run (source s) fuel = Ok (r, l)) ->
    k * length late <= base ^ len.
  Proof.
    destruct k as [|k]; [exists 0; intros; lia|]. set (C := 2 * S k). set (N := C * C * (1 + C * C)). exists (2 * N). intros late Hnd Hl.
    pose proof (late_le polish_grammar random_alternatives no_alternative polish_alts run (lit "product") ltac:(vm_compute; discriminate) polish_run base (2 * N) late Hnd Hl) as H.
    destruct Hbase as [q ->]. pose proof (late_bound q C N N [(0, lit "product")] ltac:(lia) ltac:(repeat constructor) ltac:(unfold C; cbn [length]; lia)) as HB.
    set (L := all_late _ _ _ _ _) in *. set (P := (q * 20) ^ (2 * N)) in *. clearbody L P. cbn [length] in HB.
    apply Nat.le_trans with (S k * L); [apply Nat.mul_le_mono_l, H|]. clear H Hl Hnd late.
    assert (Hg : 1 + gap C 1 = C) by (unfold gap, C; lia). rewrite Hg in HB. replace (N + 1 + C * C - N) with (1 + C * C) in HB by lia.
    fold N in HB. set (Dn := N + 1 + C * C) in *. assert (HD : N <= Dn) by (unfold Dn; lia). assert (HD0 : 0 < Dn) by (unfold Dn; lia). clearbody Dn.
    apply (Nat.mul_le_mono_pos_l _ _ (2 * Dn)); [lia|]. apply Nat.le_trans with (C * Dn * L); [unfold C; apply Nat.eq_le_incl; ring|].
    eapply Nat.le_trans; [exact HB|]. rewrite (Nat.mul_comm (2 * Dn)). apply Nat.mul_le_mono_l. clearbody N. lia.
  Qed.
End Facts.

Lemma C86_no_estimate_proof K W : 0 < K -> ~ estimate polish_grammar random_alternatives K W.
Proof.
  intros HK H.
  assert (Hstep : forall d, W (d + 1) (lit "product") < W d (lit "product")).
  { intro d. specialize (H d (lit "product") _ (proj1 (rule_some polish_grammar _ _) polish_rule_product) ltac:(split; discriminate)).
    change (K * 2 + (W (d + 1) (lit "number") + 0 + (W (d + 1) (lit "op") + (W (d + 1) (lit "product") + (W (d + 1) (lit "product") + 0)) + 0)) <= W d (lit "product") * 2) in H.
    revert H. generalize (W (d + 1) (lit "number")), (W (d + 1) (lit "op")), (W (d + 1) (lit "product")), (W d (lit "product")). intros. lia. }
  assert (Hlow : forall k d, k <= W d (lit "product")).
  { induction k as [|k IH]; intro d; [lia|]. specialize (IH (d + 1)). specialize (Hstep d). revert IH Hstep.
    generalize (W (d + 1) (lit "product")), (W d (lit "product")). intros. lia. }
  specialize (Hlow (S (W 0 (lit "product"))) 0). revert Hlow. generalize (W 0 (lit "product")). intros. lia.
Qed.
