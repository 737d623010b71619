(** The last steps to C87. *)
From Verif Require Export DirectProofs CriticalProofs Facts_Expect.
From Verif Require Import StrategyProofs Facts_Strategies ParseExamples.
From Coq Require Import Lia.
From Coq Require String.
Import String.StringSyntax.

(** ** What Weighted draws from *)

Definition copies (rec nonrec : N) (p : production) (e : expression) : nat :=
  N.to_nat (if existsb (fun t => term_eqb t (p_lhs p)) e then rec else nonrec).

Lemma weighted_same rec nonrec d p : weighted_alternatives rec nonrec d p = weighted_alternatives rec nonrec 0 p.
Proof. reflexivity. Qed.

Lemma weighted_in rec nonrec p e : In e (weighted_alternatives rec nonrec 0 p) -> In e (p_rhs p).
Proof.
  unfold weighted_alternatives. match goal with |- context [flat_map ?h (p_rhs p)] => destruct (flat_map h (p_rhs p)) as [|e0 l] eqn:E end; [auto|].
  rewrite <- E. intro H. apply in_flat_map in H. destruct H as (e' & H1 & H2). apply repeat_spec in H2. subst. exact H1.
Qed.

Lemma sum_repeat {A} (F : A -> nat) e k : list_sum (map F (repeat e k)) = k * F e.
Proof. induction k as [|k IH]; [reflexivity|]. cbn [repeat map list_sum fold_right]. unfold list_sum in IH. rewrite IH. lia. Qed.

Lemma sum_repeats {A} (F k : A -> nat) l : list_sum (map F (flat_map (fun e => repeat e (k e)) l)) = list_sum (map (fun e => k e * F e) l).
Proof. rewrite sum_flat. f_equal. apply map_ext. intro e. apply sum_repeat. Qed.

Lemma length_sum {A} (l : list A) : length l = list_sum (map (fun _ => 1) l).
Proof. rewrite sum_const. lia. Qed.

Lemma occurs_spec p n e : p_lhs p = Nonterminal n -> existsb (fun t => term_eqb t (p_lhs p)) e = true <-> 0 < occurrences n e.
Proof.
  intro Hl. rewrite Hl. unfold occurrences. induction e as [|t e IH]; [cbn; split; [discriminate|lia]|]. cbn [existsb filter]. rewrite orb_true_iff, IH.
  destruct t as [s|m]; cbn [term_eqb]; [split; [intros [H|H]; [discriminate|exact H]|auto]|].
  destruct (str_eqb m n); cbn [length]; (split; [intros [H|H]; [try discriminate; lia|lia]|intro H; auto]).
Qed.

Section Facts.
  Variables (g : grammar) (p : production) (rest : list production) (n : str) (fuel0 : nat).
  Hypothesis Eg : g = p :: rest.
  Hypothesis Hl : p_lhs p = Nonterminal n.
  Hypothesis Ht : terminates fuel0 g = Ok true.
  Hypothesis Hdirect : directly_recursive g.
  Notation yes := (fun _ _ : str => true).

  Lemma C87_random_walk_proof :
    (forall m q, first_for g m q -> choosable q -> self_references m (p_rhs q) < length (p_rhs q)) ->
    exists B, forall base len, (forall q, In q g -> choosable q -> Nat.divide (length (p_rhs q)) base) ->
      average_draws (fun f fuel => generate_random (stream_rng f) yes g fuel 0) base len 1 B.
  Proof.
    intro Hs. destruct Hdirect as [rank Hr].
    pose proof (final_estimate g random_alternatives (fun _ _ => eq_refl) (fun _ _ H => H) rank Hr Hs) as He.
    eexists. intros base len Hd. refine (C85_random_walk_proof g p rest n fuel0 Eg Hl Ht 1 _ base len He _). intros d q. apply Hd.
  Qed.

  Lemma C87_weighted_proof checks rec nonrec :
    (forall m q, first_for g m q -> choosable q -> self_references m (weighted_alternatives rec nonrec 0 q) < length (weighted_alternatives rec nonrec 0 q)) ->
    (forall q, In q g -> (nsum (fill_weights rec nonrec q) < 2 ^ 32)%N) ->
    exists B, forall base len, (forall q, In q g -> choosable q -> Nat.divide (length (weighted_alternatives rec nonrec 0 q)) base) ->
      average_draws (fun f fuel => generate (weighted (stream_rng f) checks rec nonrec) (pure_callback yes) g fuel 0) base len 1 B.
  Proof.
    intros Hs Hw. destruct Hdirect as [rank Hr].
    pose proof (final_estimate g (weighted_alternatives rec nonrec) (weighted_same rec nonrec) (weighted_in rec nonrec) rank Hr Hs) as He.
    eexists. intros base len Hd. refine (C85_weighted_proof g p rest n fuel0 Eg Hl Ht 1 _ base len checks rec nonrec He Hw _). intros d q. apply Hd.
  Qed.
End Facts.

Lemma C87_weights_exist_proof g :
  (forall m q, first_for g m q -> choosable q -> exists e, In e (p_rhs q) /\ ~ In (Nonterminal m) e) ->
  exists nonrec, forall m q, first_for g m q -> choosable q ->
    self_references m (weighted_alternatives 1 nonrec 0 q) < length (weighted_alternatives 1 nonrec 0 q).
Proof.
  intro H.
  set (size := fun q => match p_lhs q with Nonterminal m => self_references m (p_rhs q) | Terminal _ => 0 end).
  set (w := S (list_sum (map size g))). exists (N.of_nat w). intros m q Hf Hc.
  destruct (first_for_In _ _ _ Hf) as [Hq Hl]. destruct (H m q Hf Hc) as (e & He & Hm).
  assert (Hocc : forall e, existsb (fun t => term_eqb t (p_lhs q)) e = true <-> 0 < occurrences m e) by (intro; apply occurs_spec, Hl).
  assert (He0 : existsb (fun t => term_eqb t (p_lhs q)) e = false).
  { destruct (existsb (fun t => term_eqb t (p_lhs q)) e) eqn:E; [|reflexivity]. exfalso. apply Hm. rewrite Hl in E. apply existsb_exists in E.
    destruct E as (t & Ht & Et). apply term_eqb_eq in Et. subst t. exact Ht. }
  set (k := copies 1 (N.of_nat w) q).
  assert (Hsum : forall F, list_sum (map F (weighted_alternatives 1 (N.of_nat w) 0 q)) = list_sum (map (fun e => k e * F e) (p_rhs q))).
  { intro F. change (weighted_alternatives 1 (N.of_nat w) 0 q) with (match flat_map (fun e => repeat e (k e)) (p_rhs q) with [] => p_rhs q | l => l end).
    assert (Hne : flat_map (fun e => repeat e (k e)) (p_rhs q) <> []).
    { intro E. assert (Hin : In e (flat_map (fun e => repeat e (k e)) (p_rhs q))); [|rewrite E in Hin; destruct Hin].
      apply in_flat_map. exists e. split; [exact He|]. unfold k, copies. rewrite He0, Nat2N.id. left. reflexivity. }
    destruct (flat_map (fun e => repeat e (k e)) (p_rhs q)) as [|e1 l] eqn:E; [congruence|]. cbv beta iota. rewrite <- E. apply sum_repeats. }
  unfold self_references. rewrite Hsum, length_sum, Hsum.
  assert (H1 : list_sum (map (fun e => k e * occurrences m e) (p_rhs q)) <= self_references m (p_rhs q)).
  { unfold self_references. apply sum_le. intros e' _. unfold k, copies. destruct (existsb (fun t => term_eqb t (p_lhs q)) e') eqn:E; [change (N.to_nat 1) with 1; lia|].
    assert (occurrences m e' = 0); [|lia]. destruct (occurrences m e') eqn:Eo; [reflexivity|]. assert (0 < occurrences m e') by lia. apply Hocc in H0. congruence. }
  assert (H2 : self_references m (p_rhs q) < w).
  { unfold w. apply Nat.lt_succ_r. apply Nat.le_trans with (size q); [unfold size; rewrite Hl; lia|]. clear - Hq.
    induction g as [|x l IH]; [destruct Hq|]. cbn [map list_sum fold_right]. unfold list_sum in IH. destruct Hq as [->|Hq]; [lia|]. specialize (IH Hq). lia. }
  assert (H3 : w <= list_sum (map (fun e => k e * 1) (p_rhs q))).
  { clear - He He0. induction (p_rhs q) as [|x l IH] in He |- *; [destruct He|]. cbn [map list_sum fold_right]. unfold list_sum in IH. destruct He as [->|He].
    - unfold k at 1. unfold copies. rewrite He0, Nat2N.id. lia.
    - specialize (IH He). lia. }
  lia.
Qed.

(** ** The calls that return *)
Section Returned.
  Variable g : grammar.
  Variable alts : nat -> production -> list expression.
  Notation use := (used g alts).

  Definition all_returned (base len : nat) (st : list (nat * str)) : nat := list_sum (map (fun s => if snd (use st s) then 1 else 0) (scripts base len)).

  Lemma returned_nil base len : all_returned base len [] = base ^ len.
  Proof.
    unfold all_returned. rewrite (map_ext _ (fun _ => 1)), sum_const, scripts_length; [lia|]. intros [|x s]; reflexivity.
  Qed.

  Lemma returned_zero base d n st p : rule_of g n = Some p -> choosable p -> all_returned base 0 ((d, n) :: st) = 0.
  Proof. intros Er Ec. unfold all_returned. cbn [scripts map list_sum fold_right]. rewrite used_cons, Er, (proj2 (choosableb_spec p) Ec). reflexivity. Qed.

  Lemma returned_step base len d n st p : rule_of g n = Some p -> choosable p ->
    all_returned base (S len) ((d, n) :: st) =
      list_sum (map (fun x => all_returned base len (push g (d + 1) (nth (x mod length (alts d p)) (alts d p) []) st)) (seq 0 base)).
  Proof.
    intros Er Ec. unfold all_returned at 1. cbn [scripts]. rewrite sum_flat. f_equal. apply map_ext. intro x. rewrite map_map.
    unfold all_returned. f_equal. apply map_ext. intro s. rewrite used_cons, Er, (proj2 (choosableb_spec p) Ec).
    destruct (use (push g (d + 1) (nth (x mod length (alts d p)) (alts d p) []) st) s). reflexivity.
  Qed.

  Lemma returned_average q len d n st p : rule_of g n = Some p -> choosable p -> alts d p <> [] ->
    all_returned (q * length (alts d p)) (S len) ((d, n) :: st) =
      q * list_sum (map (fun e => all_returned (q * length (alts d p)) len (push g (d + 1) e st)) (alts d p)).
  Proof.
    intros Er Ec Hne. rewrite (returned_step _ len d n st p Er Ec).
    rewrite (sum_mod (fun k => all_returned (q * length (alts d p)) len (push g (d + 1) (nth k (alts d p) []) st)) (length (alts d p))).
    - f_equal. apply (sum_nth (fun e => all_returned (q * length (alts d p)) len (push g (d + 1) e st))).
    - destruct (alts d p); [congruence|cbn; lia].
  Qed.

  Variable bad : error.
  Hypothesis Hne : forall d p, In p g -> choosable p -> alts d p <> [].
  Variable run : (nat -> nat) -> nat -> res (result str * nat).
  Variable n : str.
  Hypothesis Hn : rule_of g n <> None.
  Hypothesis Hrun : forall f r l, (exists fuel, run f fuel = Ok (r, l)) <->
    (exists ds, walk g (fun _ _ => true) alts bad 0 n ds r /\ length ds = l /\ follows f 0 ds).

  Lemma returned_le base len back : NoDup back ->
    (forall s, In s back -> In s (scripts base len) /\ exists fuel r l, l <= len /\ run (source s) fuel = Ok (r, l)) ->
    length back <= all_returned base len [(0, n)].
  Proof.
    intros Hnd H. rewrite length_sum.
    apply Nat.le_trans with (list_sum (map (fun s => if snd (use [(0, n)] s) then 1 else 0) back)).
    - apply sum_le. intros s Hs. destruct (H s Hs) as [Hsc (fuel & r & l & Hl & E)].
      assert (Hx : exists fuel r, run (source s) fuel = Ok (r, l)) by eauto.
      apply (run_used g alts bad Hne run n Hn Hrun base len s l Hsc Hl) in Hx. rewrite Hx. reflexivity.
    - apply sum_incl; [exact Hnd|]. intros s Hs. apply (H s Hs).
  Qed.
End Returned.

(** ** Weights do not help against indirect recursion *)
Definition mutual_a : production := mkProd (N_ "a") [[N_ "b"; N_ "b"; N_ "b"]; [T_ "x"]].
Definition mutual_b : production := mkProd (N_ "b") [[N_ "a"; N_ "a"; N_ "a"]; [T_ "x"]].
Definition mutual_grammar : grammar := [mutual_a; mutual_b].

Section Mutual.
  Variables rec nonrec : N.
  Notation g := mutual_grammar.
  Notation alts := (weighted_alternatives rec nonrec).

  Lemma mutual_alts e1 e2 d p : p_rhs p = [e1; e2] -> existsb (fun t => term_eqb t (p_lhs p)) e1 = false -> existsb (fun t => term_eqb t (p_lhs p)) e2 = false ->
    exists w, 0 < w /\ alts d p = repeat e1 w ++ repeat e2 w.
  Proof.
    intros H H1 H2. unfold weighted_alternatives. rewrite H. cbn [flat_map]. rewrite H1, H2, app_nil_r.
    destruct (N.to_nat nonrec) as [|w] eqn:E; [exists 1; split; [lia|reflexivity]|]. exists (S w). split; [lia|]. reflexivity.
  Qed.

  Lemma mutual_step e2 n m d p q len st : rule_of g n = Some p -> choosable p -> rule_of g m <> None -> names g e2 = [] ->
    p_rhs p = [[Nonterminal m; Nonterminal m; Nonterminal m]; e2] ->
    existsb (fun t => term_eqb t (p_lhs p)) [Nonterminal m; Nonterminal m; Nonterminal m] = false -> existsb (fun t => term_eqb t (p_lhs p)) e2 = false ->
    let base := q * length (alts d p) in
    2 * all_returned g alts base (S len) ((d, n) :: st) =
      base * (all_returned g alts base len st + all_returned g alts base len ((d + 1, m) :: (d + 1, m) :: (d + 1, m) :: st)).
  Proof.
    intros Er Ec Hm He2 Hp H1 H2 base. destruct (mutual_alts _ _ d p Hp H1 H2) as (w & Hw & Ea). unfold base. rewrite returned_average; [|exact Er|exact Ec|].
    - fold base. rewrite Ea at 1. rewrite map_app, list_sum_app, !sum_repeat.
      assert (Hb : base = q * (w + w)) by (unfold base; rewrite Ea, app_length, !repeat_length; reflexivity).
      assert (P1 : push g (d + 1) [Nonterminal m; Nonterminal m; Nonterminal m] st = (d + 1, m) :: (d + 1, m) :: (d + 1, m) :: st).
      { unfold push. cbn [names flat_map]. destruct (rule_of g m); [reflexivity|contradiction]. }
      assert (P2 : push g (d + 1) e2 st = st) by (unfold push; rewrite He2; reflexivity).
      rewrite P1, P2. fold base. generalize (all_returned g alts base len st), (all_returned g alts base len ((d + 1, m) :: (d + 1, m) :: (d + 1, m) :: st)).
      rewrite Hb. intros x y. ring.
    - rewrite Ea. destruct w; [lia|discriminate].
  Qed.

  Definition mutual_names (st : list (nat * str)) : Prop := Forall (fun dn => snd dn = lit "a" \/ snd dn = lit "b") st.

  Lemma mutual_length d : length (alts d mutual_a) = length (alts d mutual_b).
  Proof.
    unfold weighted_alternatives. cbn [mutual_a mutual_b p_rhs flat_map]. change (existsb _ [N_ "b"; N_ "b"; N_ "b"]) with false. change (existsb _ [N_ "a"; N_ "a"; N_ "a"]) with false.
    change (existsb _ [T_ "x"]) with false. cbv iota. rewrite !app_nil_r. destruct (N.to_nat nonrec); [reflexivity|]. cbn. rewrite !app_length. cbn. rewrite !repeat_length. reflexivity.
  Qed.

  Lemma mutual_bound base : Nat.divide (length (alts 0 mutual_a)) base -> forall len st, mutual_names st ->
    3 ^ length st * all_returned g alts base len st <= 2 ^ length st * base ^ len.
  Proof.
    intros [q Hq]. induction len as [|len IH]; intros st Hst.
    - destruct Hst as [|[d n] st Hn Hst]; [rewrite returned_nil; cbn; lia|]. cbn [snd] in Hn.
      destruct Hn as [->| ->].
      + rewrite (returned_zero g alts base d (lit "a") st mutual_a eq_refl ltac:(split; discriminate)). lia.
      + rewrite (returned_zero g alts base d (lit "b") st mutual_b eq_refl ltac:(split; discriminate)). lia.
    - destruct Hst as [|[d n] st Hn Hst]; [rewrite returned_nil; cbn [length Nat.pow]; lia|]. cbn [snd] in Hn. cbn [length].
      assert (HS : exists m, (m = lit "a" \/ m = lit "b") /\ 2 * all_returned g alts base (S len) ((d, n) :: st) =
        base * (all_returned g alts base len st + all_returned g alts base len ((d + 1, m) :: (d + 1, m) :: (d + 1, m) :: st))).
      { destruct Hn as [->| ->].
        - exists (lit "b"). split; [auto|]. rewrite Hq. exact (mutual_step [T_ "x"] (lit "a") (lit "b") d mutual_a q len st eq_refl ltac:(split; discriminate) ltac:(discriminate) eq_refl eq_refl eq_refl eq_refl).
        - exists (lit "a"). split; [auto|]. rewrite Hq. rewrite (mutual_length 0). exact (mutual_step [T_ "x"] (lit "b") (lit "a") d mutual_b q len st eq_refl ltac:(split; discriminate) ltac:(discriminate) eq_refl eq_refl eq_refl eq_refl). }
      destruct HS as (m & Hm & HS). pose proof (IH st Hst) as H1.
      pose proof (IH ((d + 1, m) :: (d + 1, m) :: (d + 1, m) :: st) ltac:(repeat apply Forall_cons; auto)) as H2. cbn [length Nat.pow] in *.
      set (R := all_returned g alts base (S len) ((d, n) :: st)) in *. set (R1 := all_returned g alts base len st) in *.
      set (R2 := all_returned g alts base len ((d + 1, m) :: (d + 1, m) :: (d + 1, m) :: st)) in *. clearbody R R1 R2.
      set (B := base ^ len) in *. clearbody B. set (T := 3 ^ length st) in *. set (U := 2 ^ length st) in *. clearbody T U. clear - HS H1 H2.
      assert (H3 : 27 * T * (R1 + R2) <= 35 * U * B) by nia.
      assert (H4 : base * (27 * T * (R1 + R2)) <= base * (35 * U * B)) by (apply Nat.mul_le_mono_l, H3). nia.
  Qed.
End Mutual.

Lemma C87_indirect_proof : exists g,
  (forall fuel, 3 <= fuel -> terminates fuel g = Ok true) /\
  forall checks rec nonrec base len, (forall q, In q g -> (nsum (fill_weights rec nonrec q) < 2 ^ 32)%N) ->
  (forall q, In q g -> choosable q -> Nat.divide (length (weighted_alternatives rec nonrec 0 q)) base) ->
  forall back, NoDup back ->
    (forall s, In s back -> In s (scripts base len) /\ exists fuel r l, l <= len /\
       generate (weighted (stream_rng (source s)) checks rec nonrec) (pure_callback (fun _ _ => true)) g fuel 0 = Ok (r, l)) ->
    3 * length back <= 2 * base ^ len.
Proof.
  exists mutual_grammar.
  assert (Ht : forall fuel, 3 <= fuel -> terminates fuel mutual_grammar = Ok true).
  { intros fuel H. destruct fuel as [|[|[|fuel]]]; [lia|lia|lia|reflexivity]. }
  split; [exact Ht|]. intros checks rec nonrec base len Hw Hd back Hnd Hb.
  pose proof (mutual_bound rec nonrec base (Hd mutual_a (or_introl eq_refl) ltac:(split; discriminate)) len [(0, lit "a")] ltac:(repeat constructor)) as H.
  cbn [length Nat.pow] in H.
  assert (Hne : forall d p, In p mutual_grammar -> choosable p -> weighted_alternatives rec nonrec d p <> []).
  { intros d p [<-|[<-|[]]] _; unfold weighted_alternatives; cbn [mutual_a mutual_b p_rhs flat_map];
      match goal with |- context [match ?l with [] => _ | _ :: _ => _ end] => destruct l end; discriminate. }
  pose proof (returned_le mutual_grammar (weighted_alternatives rec nonrec) no_alternative Hne
    (fun f fuel => generate (weighted (stream_rng f) checks rec nonrec) (pure_callback (fun _ _ => true)) mutual_grammar fuel 0) (lit "a") ltac:(discriminate)
    (fun f r l => C70_weighted_proof mutual_grammar mutual_a [mutual_b] (lit "a") 3 eq_refl eq_refl (Ht 3 (le_n 3)) checks rec nonrec (fun _ _ => true) f r l Hw) base len back Hnd Hb) as HB.
  lia.
Qed.

(** ** The default weights *)
Definition pair_production : production := mkProd (N_ "s") [[N_ "s"; N_ "s"]; [T_ "a"]].
Definition pair_grammar : grammar := [pair_production].

Section Default.
  Notation g := pair_grammar.
  Notation alts := (weighted_alternatives 100 1).

  Lemma pair_step q d len st : all_returned g alts (q * 101) (S len) ((d, lit "s") :: st) =
    q * (all_returned g alts (q * 101) len st + 100 * all_returned g alts (q * 101) len ((d + 1, lit "s") :: (d + 1, lit "s") :: st)).
  Proof.
    pose proof (returned_average g alts q len d (lit "s") st pair_production eq_refl ltac:(split; discriminate) ltac:(discriminate)) as H.
    change (length (alts d pair_production)) with 101 in H. rewrite H. f_equal.
    change (alts d pair_production) with (repeat [N_ "s"; N_ "s"] 100 ++ repeat [T_ "a"] 1). rewrite map_app, list_sum_app, (sum_repeat _ [N_ "s"; N_ "s"] 100), (sum_repeat _ [T_ "a"] 1).
    change (push g (d + 1) [N_ "s"; N_ "s"] st) with ((d + 1, lit "s") :: (d + 1, lit "s") :: st).
    change (push g (d + 1) [T_ "a"] st) with st. lia.
  Qed.

  Lemma pair_bound q len : forall st, Forall (fun dn => snd dn = lit "s") st ->
    100 ^ length st * all_returned g alts (q * 101) len st <= (q * 101) ^ len.
  Proof.
    induction len as [|len IH]; intros st Hst.
    - destruct Hst as [|[d n] st Hn Hst]; [rewrite returned_nil; cbn; lia|]. cbn [snd] in Hn. subst n.
      pose proof (returned_zero g alts (q * 101) d (lit "s") st pair_production eq_refl ltac:(split; discriminate)) as Hz.
      set (R := all_returned g alts (q * 101) 0 ((d, lit "s") :: st)) in *. clearbody R. subst R. rewrite Nat.mul_0_r. apply Nat.le_0_l.
    - destruct Hst as [|[d n] st Hn Hst]; [rewrite returned_nil; cbn [length Nat.pow]; lia|]. cbn [snd] in Hn. subst n. cbn [length].
      rewrite pair_step. pose proof (IH st Hst) as H1.
      pose proof (IH ((d + 1, lit "s") :: (d + 1, lit "s") :: st) ltac:(repeat apply Forall_cons; auto)) as H2. cbn [length] in H2.
      rewrite (Nat.pow_succ_r' 100 (S (length st))), (Nat.pow_succ_r' 100 (length st)) in H2. rewrite (Nat.pow_succ_r' 100 (length st)), (Nat.pow_succ_r' (q * 101) len).
      set (R1 := all_returned g alts (q * 101) len st) in *. set (R2 := all_returned g alts (q * 101) len ((d + 1, lit "s") :: (d + 1, lit "s") :: st)) in *.
      clearbody R1 R2. set (B := (q * 101) ^ len) in *. clearbody B. set (T := 100 ^ length st) in *. clearbody T. clear - H1 H2.
      assert (H : 100 * T * (R1 + 100 * R2) <= 101 * B) by lia.
      apply (Nat.mul_le_mono_l _ _ q) in H. lia.
  Qed.
End Default.

Lemma C87_default_weights_proof : exists g,
  (forall fuel, 2 <= fuel -> terminates fuel g = Ok true) /\
  forall checks base len, Nat.divide 101 base -> forall back, NoDup back ->
    (forall s, In s back -> In s (scripts base len) /\ exists fuel r l, l <= len /\
       generate (weighted (stream_rng (source s)) checks 100 1) (pure_callback (fun _ _ => true)) g fuel 0 = Ok (r, l)) ->
    100 * length back <= base ^ len.
Proof.
  exists pair_grammar.
  assert (Ht : forall fuel, 2 <= fuel -> terminates fuel pair_grammar = Ok true).
  { intros fuel H. destruct fuel as [|[|fuel]]; [lia|lia|reflexivity]. }
  split; [exact Ht|]. intros checks base len [q ->] back Hnd Hb.
  pose proof (pair_bound q len [(0, lit "s")] ltac:(repeat constructor)) as H. cbn [length] in H. rewrite Nat.pow_1_r in H.
  assert (Hw : forall r, In r pair_grammar -> (nsum (fill_weights 100 1 r) < 2 ^ 32)%N) by (intros r [<-|[]]; reflexivity).
  assert (Hne : forall d p, In p pair_grammar -> choosable p -> weighted_alternatives 100 1 d p <> []) by (intros d p [<-|[]] _; discriminate).
  pose proof (returned_le pair_grammar (weighted_alternatives 100 1) no_alternative Hne
    (fun f fuel => generate (weighted (stream_rng f) checks 100 1) (pure_callback (fun _ _ => true)) pair_grammar fuel 0) (lit "s") ltac:(discriminate)
    (fun f r l => C70_weighted_proof pair_grammar pair_production [] (lit "s") 2 eq_refl eq_refl (Ht 2 (le_n 2)) checks 100 1 (fun _ _ => true) f r l Hw) (q * 101) len back Hnd Hb) as HB.
  lia.
Qed.
